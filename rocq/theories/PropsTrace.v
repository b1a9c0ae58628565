(** Property C76: after a failed decode, the path of a tracing context leads to the part that could not be decoded.
    Specification used: [TraceSpec.v] (where decoding fails, stated with the decoder without tracing) and, for what a
    context is, [Ctx.v]. *)
From Verif Require Import Base Options Int Utf8 Types Storage Fmt FmtSpec Wire Desc Tagged Ctx CtxSpec Trace TraceSpec TypesFacts CtxFacts TraceFacts
  PropsInt PropsStorage.
From Coq Require Import Lia.
Local Open Scope N_scope.

(** Tracing changes nothing about the result. *)
Theorem C76_same_result :
  forall F p o lbl t bs, fst (tdec F p o lbl t bs) = gdec F p o t bs.
Proof. exact tdec_fst. Qed.
Print Assumptions C76_same_result.

(** A successful decode leaves the path (and the errors) of the context as they were. *)
Theorem C76_success :
  forall F p o lbl t bs x c,
    packs (fun _ => false) t = true -> gdec F p o t bs = Ok x -> c_cap c = 0 -> c_held c = 0 ->
    exists c', acts p (snd (tdec F p o lbl t bs)) c = Ok c' /\
      c_path c' = c_path c /\ c_cap c' = 0 /\ c_held c' = 0 /\ c_errors c' = c_errors c.
Proof.
  intros F p o lbl t bs x c _ E Hc Hh. rewrite <- (tdec_fst F p o lbl) in E.
  pose proof (settled_tdec F p o lbl t bs x E (c_path c)) as T. rewrite app_nil_r in T.
  exact (plain_acts p _ c (c_path c) (calls_tdec F p o lbl t bs) Hc Hh T).
Qed.
Print Assumptions C76_success.

(** After a failed one the path is that to the part that could not be decoded, below what was the path before. *)
Theorem C76_error_path :
  forall F p o lbl t bs c,
    packs (fun _ => false) t = true -> gdec F p o t bs = Err -> c_cap c = 0 -> c_held c = 0 ->
    exists c' q, acts p (snd (tdec F p o lbl t bs)) c = Ok c' /\
      c_path c' = c_path c ++ q /\ c_cap c' = 0 /\ fails F p o lbl t bs q.
Proof.
  intros F p o lbl t bs c _ E Hc Hh. rewrite <- (tdec_fst F p o lbl) in E.
  destruct (errs_tdec F p o lbl t bs E) as (q & Hq & Hf).
  destruct (plain_acts p _ c (c_path c ++ q) (calls_tdec F p o lbl t bs) Hc Hh (Hq (c_path c))) as (c' & E1 & E2 & E3 & _).
  exists c', q. auto.
Qed.
Print Assumptions C76_error_path.

(** There is no other such part. *)
Theorem C76_one_part :
  forall F p o lbl t bs q q', fails F p o lbl t bs q -> fails F p o lbl t bs q' -> q = q'.
Proof. intros F p o lbl t bs q q' H H'. exact (fails_one F p o lbl t bs q' H' q H). Qed.
Print Assumptions C76_one_part.

(** Only decodes that fail have one. *)
Theorem C76_fails_err :
  forall F p o lbl t bs q, fails F p o lbl t bs q -> gdec F p o t bs = Err.
Proof. exact fails_err. Qed.
Print Assumptions C76_fails_err.

(** So decodes with a fresh context report the right path, whatever happened before and was cleared. *)
Theorem C76_report :
  forall F p o lbl t bs h c0,
    packs (fun _ => false) t = true -> gdec F p o t bs = Err ->
    acts p (h ++ [(Clear, (true, true))]) (fresh false) = Ok c0 -> roomy h -> c_held c0 = 0 ->
    exists c, acts p (snd (tdec F p o lbl t bs)) c0 = Ok c /\ fails F p o lbl t bs (c_path c) /\ c_cap c = 0.
Proof.
  intros F p o lbl t bs h c0 Hp E Ha Hr Hh.
  assert (Hc : c_cap c0 = 0).
  { refine (roomy_cap p _ (fresh false) c0 _ eq_refl Ha). apply Forall_app. split; [exact Hr|]. constructor; [reflexivity|constructor]. }
  assert (Hpath : c_path c0 = []).
  { rewrite acts_app in Ha. destruct (acts p h (fresh false)) as [c1| |]; cbn [bind] in Ha; try discriminate.
    cbn [acts act] in Ha. unfold exclusive in Ha. cbn [with_mark c_held] in Ha. destruct (c_held c1 =? 0); cbn [bind] in Ha; [|discriminate].
    inversion Ha. reflexivity. }
  destruct (C76_error_path F p o lbl t bs c0 Hp E Hc Hh) as (c & q & E1 & E2 & E3 & E4).
  rewrite Hpath in E2. cbn [app] in E2. exists c. rewrite E2. auto.
Qed.
Print Assumptions C76_report.

(** Names of members for examples: [a0], [a1], ... *)
Definition ex_lbl (_ : ty) (i : nat) : bytes := [97; 48 + N.of_nat i].

(** Untagged enums: the result is that of [unt_dec]. *)
Theorem C76_untagged_result :
  forall F p o lbl ts i bs,
    fst (tuntagged i (map (tdec F p o lbl) ts) bs) = unt_from (of_fmt F p o) i ts bs.
Proof.
  intros F p o lbl ts. induction ts as [|t ts IH]; intros i bs; [reflexivity|]. cbn [map tuntagged unt_from]. destruct ts as [|t' ts].
  - cbn [map]. rewrite fst_tbind, tdec_fst. cbn [of_fmt m_dec]. unfold dec in *. destruct (gdec F p o t bs) as [[]| |]; reflexivity.
  - cbn [map]. pose proof (tdec_fst F p o lbl t bs) as E. destruct (tdec F p o lbl t bs) as [r l]. cbn [fst] in E. cbn [of_fmt m_dec].
    unfold dec in *. rewrite <- E. destruct r as [[x r]| |]; try reflexivity. cbn [fst]. exact (IH (S i) bs).
Qed.
Print Assumptions C76_untagged_result.

(** But their failed variants leave their steps on the path: after a successful decode it is no more what it was, and
    errors in what is decoded next are reported below members that do not contain them. *)
Theorem C76_untagged_refuted :
  exists p t1 t2 bs x c,
    packs (fun _ => false) t1 = true /\ packs (fun _ => false) t2 = true /\
    let m := tuntagged 0 (map (tdec (wire p WIRE_OPTIONS) p WIRE_OPTIONS ex_lbl) [t1; t2]) bs in
    fst m = Ok (VVar 1 x, []) /\ acts p (snd m) (fresh false) = Ok c /\ c_path c = [AtNamed [97; 48]].
Proof.
  exists ex_plat, (TStruct TStr [(ex_key [120] None, TBool)]), (TStruct TStr [(ex_key [120] None, TU W8)]), [130; 65; 120; 199].
  eexists. eexists. split; [reflexivity|]. split; [reflexivity|]. cbv zeta. split; [vm_compute; reflexivity|].
  split; [vm_compute; reflexivity|reflexivity].
Qed.
Print Assumptions C76_untagged_refuted.

(** [.a1[1]]: the second element of a set of bools; the first fields were decoded and left. *)
Definition ex_traced : ty :=
  TStruct TStr [(ex_key [120] None, TU W8); (ex_key [121] None, TSet TBool)].

Example C76_nonvacuous :
  packs (fun _ => false) ex_traced = true /\
  exists bs v,
    wire_decode ex_plat WIRE_OPTIONS ex_traced bs = Ok (v, []) /\
    let bad := removelast bs ++ [199] in
    wire_decode ex_plat WIRE_OPTIONS ex_traced bad = Err /\
    exists c, acts ex_plat (snd (tdec (wire ex_plat WIRE_OPTIONS) ex_plat WIRE_OPTIONS ex_lbl ex_traced bad)) (fresh false) = Ok c /\
      c_path c = [AtNamed [97; 49]; AtIndex 1] /\ show_path (c_path c) (c_cap c) = [46; 97; 49; 91; 49; 93].
Proof.
  split; [reflexivity|]. exists [132; 65; 120; 193; 65; 121; 130; 192; 193]. eexists. split; [vm_compute; reflexivity|]. cbv zeta.
  split; [vm_compute; reflexivity|]. eexists. split; [vm_compute; reflexivity|]. split; reflexivity.
Qed.
