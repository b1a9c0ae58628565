(** C27, C28, C55: the slice allocator.

    The full properties would be:
    - C27: at every moment of every history of legal calls the live vectors are
      [separate];
    - C28: every history of legal calls answers what ordinary lists would, and
      the vectors hold those lists;
    - C55: space that was reserved is there.
    All are false of the code; what holds, holds of the histories in which none
    of three events happens (Alloc.v, [hazard]), in particular of the histories
    that are [tidy]. *)
From Coq Require Import List NArith Bool Lia Arith.
From Verif Require Import Base BaseFacts Alloc AllocSpec AllocFacts AllocRun AllocTidy AllocWitness AllocReserve.
Import ListNotations.
Open Scope N_scope.

(** A fresh allocator over a buffer.  In a build with debug assertions the
    buffer has at least 7 bytes. *)
Definition fresh_on (dbg : bool) (base size : N) (s : ast) : Prop :=
  buffer_ok base size /\ (dbg = false \/ 7 <= size) /\ exists mem, new_slice dbg base size mem = Done s.

Lemma fresh_wok : forall dbg base size s, fresh_on dbg base size s ->
  wok s [] [] [] /\ a_haz s = [] /\ a_lo s = base /\ a_hi s <= base + size.
Proof.
  intros dbg base size s (B & D & mem & E). destruct (new_slice_inv dbg base size mem s B D E) as (I & Hz & Lo & Hi).
  split; [now apply wok_start|]. tauto.
Qed.

(** ** C28: vectors are lists *)

Theorem C28_lists_partial dbg base size s ops rs w :
  fresh_on dbg base size s -> run (mkw s []) ops = Done (rs, w) -> calls_ok [] ops rs ->
  a_haz (w_alloc w) = [] ->
  exists l, list_run [] ops rs = Some l /\ holds w l.
Proof.
  intros F E Ok Hz. destruct (fresh_wok _ _ _ _ F) as (K & _).
  destruct (run_spec ops (mkw s []) [] [] rs w K E Ok Hz) as (rl' & l' & Lr & K' & _).
  exists l'. split; [auto|]. now apply wok_holds with (1 := K').
Qed.
Print Assumptions C28_lists_partial.

(** Until one of the events happens, legal calls do not panic, and nothing is
    undefined. *)
Theorem C28_progress_partial dbg base size s ops rs w l o :
  fresh_on dbg base size s -> run (mkw s []) ops = Done (rs, w) -> calls_ok [] ops rs ->
  a_haz (w_alloc w) = [] -> list_run [] ops rs = Some l -> call_ok l o ->
  (exists r w', step w o = Done (r, w'))
  \/ exists z, z <> [] /\ (step w o = Panicked z \/ step w o = Undefined z).
Proof.
  intros F E Ok Hz Lr Oc. destruct (fresh_wok _ _ _ _ F) as (K & _).
  destruct (run_spec ops (mkw s []) [] [] rs w K E Ok Hz) as (rl' & l' & Lr' & K' & _).
  rewrite Lr in Lr'. injection Lr' as <-. pose proof (step_spec w rl' l o K' Oc) as Sp.
  destruct (step w o) as [(r, w')|z|z]; cbn [wp] in Sp; [left; eauto|right; eauto|right; eauto].
Qed.
Print Assumptions C28_progress_partial.

(** Tidy histories: none of the events ever happens, so that they behave like
    lists, and every legal call that keeps them tidy gives an answer. *)
Theorem C28_tidy_partial dbg base size s ops rs w stack spare next :
  fresh_on dbg base size s -> run (mkw s []) ops = Done (rs, w) -> calls_ok [] ops rs ->
  tidy base [] false 0 ops rs = Some (stack, spare, next) ->
  exists l, list_run [] ops rs = Some l /\ holds w l
    /\ forall o, call_ok l o -> tidy_step base stack spare next o RDone <> None ->
       exists r w', step w o = Done (r, w').
Proof.
  intros (B & D & mem & N) E Ok T. pose proof (stacked_start dbg base size mem s B D N) as K.
  destruct (stacked_run base ops (mkw s []) [] [] false rs w _ K E Ok T) as (l & st & sp & Lr & Eq & K' & _).
  injection Eq as -> -> ->. exists l. split; [auto|]. split; [apply wok_holds with (1 := sk_wok _ _ _ _ _ K')|].
  intros o Oc Ts. destruct (stacked_step base w l st sp o K' Oc Ts) as (r & w' & _ & _ & _ & Es & _). eauto.
Qed.
Print Assumptions C28_tidy_partial.

Definition u8 : op := ONew 1 1.
Definition ext (h : nat) (xs : bytes) : op := OExtendFromSlice h (map (fun x => [x]) xs).

(** A history of legal calls, answered as lists would answer, after which a
    vector does not hold what was put into it. *)
Definition corrupted (dbg : bool) (base size : N) (ops : list op) (h : nat) : Prop :=
  exists s rs w l q v, fresh_on dbg base size s /\ run (mkw s []) ops = Done (rs, w)
    /\ calls_ok [] ops rs /\ list_run [] ops rs = Some l
    /\ lget l h = Some q /\ get w h = Some v /\ vec_items (w_alloc w) v <> Done (q_items q).

Lemma corrupted_ok : forall base size ops h xs ys, buffer_ok base size ->
  compare false base size ops h = Some (xs, ys) -> ys <> Done xs -> corrupted false base size ops h.
Proof.
  intros base size ops h xs ys B C D. destruct (compare_ok _ _ _ _ _ _ _ C) as (s & rs & w & l & q & v & N & R & Ok & Lr & G & Gv & <- & <-).
  exists s, rs, w, l, q, v. repeat split; auto; [apply B|apply B|]. eauto.
Qed.

Ltac corrupt := eapply corrupted_ok; [split; vm_compute; reflexivity|vm_compute; reflexivity|discriminate].

(** Appending a vector to another, with a third in the same place: the bytes of
    the first are overwritten by writing to the third. *)
Theorem C28_extend_refuted :
  corrupted false 64 4000 [u8; ext 0 [1; 2]; u8; u8; OExtend 0 2; ext 1 [3]] 0.
Proof. corrupt. Qed.
Print Assumptions C28_extend_refuted.
(** The same, when the program always releases its newest vector first. *)
Theorem C28_nested_extend_refuted :
  corrupted false 64 4000 [u8; u8; u8; OExtend 1 2; ODrop 1; u8; ext 3 [1; 2; 3]; OExtend 0 3; u8; OExtend 0 4] 0.
Proof. corrupt. Qed.
Print Assumptions C28_nested_extend_refuted.
(** Without appending vectors to each other: two at a time ... *)
Theorem C28_drop_refuted :
  corrupted false 64 4000 [u8; u8; ODrop 1; ODrop 0; u8; ext 2 [1; 2; 3]; ext 2 [4]; u8; ext 2 [5]; ext 3 [6];
                           ext 2 [7; 8; 9]; ext 3 [10; 11]] 3.
Proof. corrupt. Qed.
Print Assumptions C28_drop_refuted.
(** ... or released in the order opposite to that of their making. *)
Theorem C28_nested_drop_refuted :
  corrupted false 64 4000 [u8; ext 0 [1; 2]; ext 0 [3; 4; 5]; ext 0 [6; 7]; ext 0 [8; 9; 10]; ext 0 [11; 12]; u8;
                           ODrop 1; ODrop 0; u8; ext 2 [1; 2; 3]; ext 2 [4]; u8; ext 3 [5; 6; 7]; u8; ext 4 [8; 9; 10];
                           u8; ext 5 [11; 12]; ODrop 5; ODrop 4; ODrop 3; u8; ODrop 6; ext 2 [13]; ext 2 [14; 15; 16]] 2.
Proof. corrupt. Qed.
Print Assumptions C28_nested_drop_refuted.
(** Without releasing anything: three vectors that only grow. *)
Theorem C28_grow_refuted :
  corrupted false 64 4000 [u8; ext 0 [1]; u8; ext 0 [2]; ext 1 [3; 4; 5; 6; 7]; ext 1 [8; 9]; ext 0 [10; 11]; ext 1 [12; 13];
                           u8; ext 2 [14; 15; 16]; ext 2 [17; 18; 19]; ext 0 [20; 21]; ext 2 [22];
                           ext 0 [23; 24; 25; 26; 27]] 0.
Proof. corrupt. Qed.
Print Assumptions C28_grow_refuted.
(** A box in a buffer that is too full for it: undefined behaviour without
    debug assertions, a panic with them, where an error was due. *)
Theorem C28_box_refuted :
  final false 64 40 [OBox 17 1 (repeat 7 17)] = Undefined [Overlap]
  /\ final true 64 40 [OBox 17 1 (repeat 7 17)] = Panicked [Overlap].
Proof. split; vm_compute; reflexivity. Qed.
Print Assumptions C28_box_refuted.
(** A buffer so small that its end cannot be aligned panics with debug
    assertions. *)
Theorem C28_tiny_refuted : final true 1 3 [u8] = Panicked [].
Proof. vm_compute. reflexivity. Qed.
Print Assumptions C28_tiny_refuted.

(** ** C27: live vectors are aligned, in the buffer, and apart *)

Theorem C27_separate_partial dbg base size s ops rs w :
  fresh_on dbg base size s -> run (mkw s []) ops = Done (rs, w) -> calls_ok [] ops rs ->
  a_haz (w_alloc w) = [] -> separate base size w.
Proof.
  intros F E Ok Hz. destruct (fresh_wok _ _ _ _ F) as (K & _ & Lo & Hi).
  destruct (run_spec ops (mkw s []) [] [] rs w K E Ok Hz) as (rl' & l' & Lr & K' & E1 & E2 & _).
  cbn [w_alloc] in *. apply (wok_separate w rl' l'); auto; [|rewrite <- E2 in *]; congruence.
Qed.
Print Assumptions C27_separate_partial.

Theorem C27_tidy_partial dbg base size s ops rs w stack spare next :
  fresh_on dbg base size s -> run (mkw s []) ops = Done (rs, w) -> calls_ok [] ops rs ->
  tidy base [] false 0 ops rs = Some (stack, spare, next) -> separate base size w.
Proof.
  intros F E Ok T. pose proof F as (B & D & mem & N). destruct (fresh_wok _ _ _ _ F) as (_ & _ & Lo & Hi).
  pose proof (stacked_start dbg base size mem s B D N) as K.
  destruct (stacked_run base ops (mkw s []) [] [] false rs w _ K E Ok T) as (l & st & sp & Lr & Eq & K' & E1 & E2 & _).
  cbn [w_alloc] in *. apply (wok_separate w _ l) with (1 := sk_wok _ _ _ _ _ K'); congruence.
Qed.
Print Assumptions C27_tidy_partial.

(** The vectors of handles 0 and 1 end up with the same bytes. *)
Theorem C27_separate_refuted : exists s rs w,
  new_slice false 64 4000 (fun _ => 0) = Done s
  /\ run (mkw s []) [u8; ext 0 [1; 2]; u8; u8; OExtend 0 2; ext 1 [3]] = Done (rs, w)
  /\ calls_ok [] [u8; ext 0 [1; 2]; u8; u8; OExtend 0 2; ext 1 [3]] rs /\ ~ separate 64 4000 w.
Proof. apply sharing_ok with (h := 0%nat) (g := 1%nat); [discriminate|]. vm_compute. reflexivity. Qed.
Print Assumptions C27_separate_refuted.

(** ** C55: reserved space is there *)

(** After a [reserve] for [n] elements that succeeded, and whatever is then
    done to other vectors, appending up to [n] elements succeeds. *)
Theorem C55_reserve_partial dbg base size s ops1 rs1 w1 l h q n w2 ops2 rs2 w :
  fresh_on dbg base size s -> run (mkw s []) ops1 = Done (rs1, w1) -> calls_ok [] ops1 rs1 ->
  list_run [] ops1 rs1 = Some l -> lget l h = Some q -> lenN (q_items q) + n < usz ->
  step w1 (OReserve h n) = Done (RDone, w2) ->
  run w2 ops2 = Done (rs2, w) -> calls_ok l ops2 rs2 -> Forall (fun o => ~ acts_on h o) ops2 ->
  a_haz (w_alloc w) = [] ->
  (exists v, get w h = Some v /\ (q_sz q <> 0 -> (lenN (q_items q) + n) * q_sz q <= vec_capacity (w_alloc w) v))
  /\ forall items : list bytes, Forall (fun x => lenN x = q_sz q) items -> lenN items <= n ->
     exists w', step w (OExtendFromSlice h items) = Done (RDone, w').
Proof.
  intros F E Ok Lr G L S2 R2 Ok2 Fa Hz. destruct (fresh_wok _ _ _ _ F) as (K & _).
  assert (Hz2 : a_haz (w_alloc w2) = []).
  { destruct (a_haz (w_alloc w2)) eqn:H; [auto|]. exfalso. apply (run_dirty _ _ _ _ ltac:(rewrite H; discriminate) R2 Hz). }
  assert (Hz1 : a_haz (w_alloc w1) = []).
  { destruct (a_haz (w_alloc w1)) eqn:H; [auto|]. exfalso. apply (step_dirty _ _ _ _ ltac:(rewrite H; discriminate) S2 Hz2). }
  destruct (run_spec ops1 (mkw s []) [] [] rs1 w1 K E Ok Hz1) as (rl' & l' & Lr' & K' & _).
  rewrite Lr in Lr'. injection Lr' as <-.
  destruct (reserved w1 rl' l h n q w2 ops2 rs2 w K' G L S2 R2 Ok2 Hz Fa) as (v & Gv & C & X). eauto.
Qed.
Print Assumptions C55_reserve_partial.

(** [capacity] is documented as a number of elements: a vector of 4-byte
    elements that says 8 and has room for 2. *)
Theorem C55_capacity_refuted : exists rs w v,
  final false 64 32 [OWithCapacity 4 4 2] = Done (rs, w) /\ get w 0 = Some v
  /\ vec_capacity (w_alloc w) v = 8
  /\ exists w', step w (OExtendFromSlice 0 [[1; 0; 0; 0]; [2; 0; 0; 0]; [3; 0; 0; 0]]) = Done (RFailed, w').
Proof. do 3 eexists. split; [vm_compute; reflexivity|]. split; [vm_compute; reflexivity|]. split; [vm_compute; reflexivity|]. eexists. vm_compute. reflexivity. Qed.
Print Assumptions C55_capacity_refuted.
(** Reserving usize::MAX more elements succeeds without overflow checks. *)
Theorem C55_overflow_refuted : exists rs w v,
  final false 64 4000 [u8; ext 0 [1]; OReserve 0 (2 ^ 64 - 1)] = Done (rs, w) /\ rs = [RDone; RDone; RDone]
  /\ get w 0 = Some v /\ vec_capacity (w_alloc w) v = 1.
Proof. do 3 eexists. split; [vm_compute; reflexivity|]. split; [vm_compute; reflexivity|]. split; vm_compute; reflexivity. Qed.
Print Assumptions C55_overflow_refuted.

(** ** The hypotheses can be met *)

Lemma final_fresh : forall dbg base size ops x, final dbg base size ops = Done x -> buffer_ok base size -> dbg = false \/ 7 <= size ->
  exists s, fresh_on dbg base size s /\ run (mkw s []) ops = Done x.
Proof. intros dbg base size ops x E B D. destruct (final_run _ _ _ _ _ E) as (s & N & R). exists s. split; [|auto]. split; [auto|]. split; [auto|]. eauto. Qed.

(** The example of the documentation of [Slice]. *)
Definition doc : list op :=
  [u8; u8; ext 1 [72; 101; 49; 49; 111]; ext 0 [72; 101; 49; 49; 111]; ext 0 [32; 87; 48; 114; 108; 100];
   u8; ext 2 [33]; ext 0 [33]].
Example C28_nonvacuous : exists s rs w l q, fresh_on true 64 4000 s /\ run (mkw s []) doc = Done (rs, w) /\ calls_ok [] doc rs
  /\ a_haz (w_alloc w) = [] /\ list_run [] doc rs = Some l /\ lget l 0 = Some q /\ length (q_items q) = 12%nat.
Proof.
  assert (E : exists x, final true 64 4000 doc = Done x /\ calls_okb [] doc (fst x) = true /\ a_haz (w_alloc (snd x)) = []
    /\ exists l q, list_run [] doc (fst x) = Some l /\ lget l 0 = Some q /\ length (q_items q) = 12%nat).
  { eexists. split; [vm_compute; reflexivity|]. split; [vm_compute; reflexivity|]. split; [vm_compute; reflexivity|].
    do 2 eexists. split; [vm_compute; reflexivity|]. split; vm_compute; reflexivity. }
  destruct E as ((rs, w) & E & C & Hz & l & q & L & G & Q).
  destruct (final_fresh _ _ _ _ _ E) as (s & F & R). { split; reflexivity. } { right. discriminate. }
  exists s, rs, w, l, q. repeat split; auto; try apply F. now apply calls_okb_ok.
Qed.
(** A tidy history with merging, dropping and elements of two types. *)
Definition tidy_ex : list op :=
  [OWithCapacity 4 4 2; OPush 0 [1; 0; 0; 0]; u8; ext 1 [1; 2; 3]; u8; ext 2 [4; 5]; OExtend 1 2; u8; ext 3 [6]; ODrop 3; ext 1 [9; 9]].
Example C28_tidy_nonvacuous : exists s rs w, fresh_on true 64 4000 s /\ run (mkw s []) tidy_ex = Done (rs, w) /\ calls_ok [] tidy_ex rs
  /\ tidy 64 [] false 0 tidy_ex rs = Some ([1%nat; 0%nat], true, 4%nat).
Proof.
  assert (E : exists x, final true 64 4000 tidy_ex = Done x /\ calls_okb [] tidy_ex (fst x) = true
    /\ tidy 64 [] false 0 tidy_ex (fst x) = Some ([1%nat; 0%nat], true, 4%nat)).
  { eexists. split; [vm_compute; reflexivity|]. split; vm_compute; reflexivity. }
  destruct E as ((rs, w) & E & C & T). destruct (final_fresh _ _ _ _ _ E) as (s & F & R). { split; reflexivity. } { right. discriminate. }
  exists s, rs, w. repeat split; auto; try apply F. now apply calls_okb_ok.
Qed.
(** Two vectors, the first with reserved space, the second growing behind it. *)
Example C55_nonvacuous : exists rs1 w1 w2 rs2 w,
  final true 64 4000 [u8; u8; ext 1 [1; 2]; ext 0 [3]] = Done (rs1, w1) /\ step w1 (OReserve 0 10) = Done (RDone, w2)
  /\ run w2 [ext 1 [4; 5; 6; 7; 8; 9]; u8] = Done (rs2, w) /\ a_haz (w_alloc w) = [].
Proof.
  do 5 eexists. split; [vm_compute; reflexivity|]. split; [vm_compute; reflexivity|]. split; vm_compute; reflexivity.
Qed.
