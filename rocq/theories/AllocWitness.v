(** Deciding, by computation, that a concrete history is one a program can
    make, and what it ends in. *)
From Coq Require Import List NArith Bool Lia Arith.
From Verif Require Import Base BaseFacts Alloc AllocSpec.
Import ListNotations.
Open Scope N_scope.

Definition layout_okb (sz al : N) : bool := (al =? 2 ^ N.log2 al) && (sz mod al =? 0) && (sz <? 2 ^ 63).

Lemma layout_okb_ok : forall sz al, layout_okb sz al = true -> layout_ok sz al.
Proof.
  intros sz al H. unfold layout_okb in H. apply andb_true_iff in H. destruct H as (H & H3). apply andb_true_iff in H. destruct H as (H1 & H2).
  apply N.eqb_eq in H1, H2. apply N.ltb_lt in H3. split; [eauto|auto].
Qed.

Definition call_okb (l : lists) (o : op) : bool :=
  match o with
  | ONew sz al => layout_okb sz al
  | OWithCapacity sz al n => layout_okb sz al && (n <? usz)
  | OBox sz al value => layout_okb sz al && (lenN value =? sz)
  | OPush h value =>
      match lget l h with Some q => (lenN value =? q_sz q) && (lenN (q_items q) + 1 <? usz) | None => false end
  | OExtendFromSlice h items =>
      match lget l h with
      | Some q => forallb (fun x => lenN x =? q_sz q) items && (lenN (q_items q) + lenN items <? usz)
      | None => false end
  | OReserve h n => match lget l h with Some q => lenN (q_items q) + n <? usz | None => false end
  | OPop h | OClear h | ODrop h => match lget l h with Some q => true | None => false end
  | OExtend h g =>
      negb (Nat.eqb h g) &&
      match lget l h, lget l g with
      | Some q, Some p => (q_sz q =? q_sz p) && (q_al q =? q_al p) && (lenN (q_items q) + lenN (q_items p) <? usz)
      | _, _ => false
      end
  end.

Lemma call_okb_ok : forall l o, call_okb l o = true -> call_ok l o.
Proof.
  intros l o H. destruct o; cbn [call_okb call_ok] in *; repeat rewrite ?andb_true_iff, ?N.eqb_eq, ?N.ltb_lt in H.
  - now apply layout_okb_ok.
  - destruct H. split; auto. now apply layout_okb_ok.
  - destruct H. split; auto. now apply layout_okb_ok.
  - destruct (lget l h) as [q|]; [|discriminate]. rewrite andb_true_iff, N.eqb_eq, N.ltb_lt in H. destruct H. eauto.
  - destruct (lget l h) as [q|]; [|discriminate]. rewrite andb_true_iff, N.ltb_lt in H. destruct H as (H & H').
    exists q. split; auto. split; auto. apply Forall_forall. intros x Hx. rewrite forallb_forall in H. now apply N.eqb_eq, H.
  - destruct (lget l h) as [q|]; [|discriminate]. rewrite N.ltb_lt in H. eauto.
  - destruct (lget l h) as [q|]; [|discriminate]. eauto.
  - destruct (lget l h) as [q|]; [|discriminate]. eauto.
  - destruct H as (H1 & H2). apply negb_true_iff, Nat.eqb_neq in H1. split; auto.
    destruct (lget l h) as [q|]; [|discriminate]. destruct (lget l g) as [p|]; [|discriminate].
    repeat rewrite ?andb_true_iff, ?N.eqb_eq, ?N.ltb_lt in H2. destruct H2 as ((A & B) & C). eauto 10.
  - destruct (lget l h) as [q|]; [|discriminate]. eauto.
Qed.

Fixpoint calls_okb (l : lists) (ops : list op) (rs : list reply) : bool :=
  match ops, rs with
  | o :: ops', r :: rs' =>
      call_okb l o &&
      match list_step l o r with
      | Some l' => calls_okb l' ops' rs'
      | None => true
      end
  | _, _ => true
  end.

Lemma calls_okb_ok : forall ops l rs, calls_okb l ops rs = true -> calls_ok l ops rs.
Proof.
  induction ops as [|o t IH]; intros l [|r rs] H; cbn [calls_okb calls_ok] in *; auto.
  apply andb_true_iff in H. destruct H as (H1 & H2). split; [now apply call_okb_ok|].
  destruct (list_step l o r); auto.
Qed.

(** The end of a history on a fresh allocator over a zeroed buffer. *)
Definition final (dbg : bool) (base size : N) (ops : list op) : out (list reply * world) :=
  let! s := new_slice dbg base size (fun _ => 0) in run (mkw s []) ops.

Lemma final_run : forall dbg base size ops x, final dbg base size ops = Done x ->
  exists s, new_slice dbg base size (fun _ => 0) = Done s /\ run (mkw s []) ops = Done x.
Proof.
  intros dbg base size ops x H. unfold final in H. destruct (new_slice dbg base size (fun _ => 0)) as [s|z|z]; try discriminate. eauto.
Qed.

(** What the vector of handle [h] is supposed to hold, and what it holds. *)
Definition compare (dbg : bool) (base size : N) (ops : list op) (h : nat) : option (list bytes * out (list bytes)) :=
  match final dbg base size ops with
  | Done (rs, w) =>
      if calls_okb [] ops rs then
        match list_run [] ops rs with
        | Some l => match lget l h, get w h with
                    | Some q, Some v => Some (q_items q, vec_items (w_alloc w) v)
                    | _, _ => None
                    end
        | None => None
        end
      else None
  | _ => None
  end.

Lemma compare_ok : forall dbg base size ops h xs ys, compare dbg base size ops h = Some (xs, ys) ->
  exists s rs w l q v, new_slice dbg base size (fun _ => 0) = Done s /\ run (mkw s []) ops = Done (rs, w)
    /\ calls_ok [] ops rs /\ list_run [] ops rs = Some l
    /\ lget l h = Some q /\ get w h = Some v /\ q_items q = xs /\ vec_items (w_alloc w) v = ys.
Proof.
  intros dbg base size ops h xs ys H. unfold compare in H.
  destruct (final dbg base size ops) as [(rs, w)|z|z] eqn:F; try discriminate.
  apply final_run in F. destruct F as (s & F1 & F2).
  destruct (calls_okb [] ops rs) eqn:C; [|discriminate]. apply calls_okb_ok in C.
  destruct (list_run [] ops rs) as [l|] eqn:L; [|discriminate].
  destruct (lget l h) as [q|] eqn:Q; [|discriminate]. destruct (get w h) as [v|] eqn:V; [|discriminate].
  injection H as H1 H2. exists s, rs, w, l, q, v. repeat split; auto.
Qed.

(** Two extents. *)
Definition extents (dbg : bool) (base size : N) (ops : list op) (h g : nat) : option (N * N * (N * N)) :=
  match final dbg base size ops with
  | Done (rs, w) =>
      if calls_okb [] ops rs then
        match get w h, get w g with
        | Some v, Some o =>
            if negb (v_sz v =? 0) && negb (v_sz o =? 0) then Some (extent (w_alloc w) v, extent (w_alloc w) o) else None
        | _, _ => None
        end
      else None
  | _ => None
  end.
Definition sharing (x : option (N * N * (N * N))) : bool :=
  match x with
  | Some ((a, b), (c, d)) => (a <? b) && (c <? d) && (a <? d) && (c <? b)
  | None => false
  end.

Lemma sharing_ok : forall dbg base size ops h g, h <> g -> sharing (extents dbg base size ops h g) = true ->
  exists s rs w, new_slice dbg base size (fun _ => 0) = Done s /\ run (mkw s []) ops = Done (rs, w)
    /\ calls_ok [] ops rs /\ ~ separate base size w.
Proof.
  intros dbg base size ops h g D H. unfold extents in H.
  destruct (final dbg base size ops) as [(rs, w)|z|z] eqn:F; try discriminate.
  apply final_run in F. destruct F as (s & F1 & F2).
  destruct (calls_okb [] ops rs) eqn:C; [|discriminate]. apply calls_okb_ok in C.
  destruct (get w h) as [v|] eqn:V; [|discriminate]. destruct (get w g) as [o|] eqn:O; [|discriminate].
  destruct (negb (v_sz v =? 0) && negb (v_sz o =? 0)) eqn:Z; [|discriminate].
  apply andb_true_iff in Z. destruct Z as (Z1 & Z2). apply negb_true_iff, N.eqb_neq in Z1, Z2.
  exists s, rs, w. repeat split; auto. intros (_ & S2).
  specialize (S2 h g v o D V O Z1 Z2). cbn [sharing extent fst snd] in *. unfold extent in H.
  rewrite !andb_true_iff, !N.ltb_lt in H. lia.
Qed.
