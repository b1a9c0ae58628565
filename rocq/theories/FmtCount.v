(** Arrays and tuples with the wrong number of elements. *)
From Verif Require Import Base Options Int Utf8 Types Storage StorageSpec Fmt FmtSpec
  BaseFacts IntFacts TypesFacts StorageFacts DecFacts StorageSafe StabFacts FmtFacts FmtSafe FmtEvolve.
From Coq Require Import ZifyBool ZifyNat ZifyN.
Local Open Scope N_scope.

Lemma g_array_count F p o n t vs bs rest :
  rt_laws F p -> wf p t -> packs_ok p o t ->
  has_type p (TVec t) (VList vs) = true -> genc F p o (TVec t) (VList vs) = Ok bs ->
  gdec F p o (TArray n t) (bs ++ rest) = if lenN vs =? n then Ok (VList vs, rest) else Err.
Proof.
  intros L Hw Hp Hv He. pose proof (g_roundtrip F p o t L Hw Hp) as Hrt.
  cbn [has_type] in Hv. apply andb_true_iff in Hv. destruct Hv as [Hv Hl]. apply len_ok_lt in Hl.
  cbn [genc] in He. inv_bind He. inv_bind He. inversion He; subst.
  cbn [gdec]. rewrite <- app_assoc, (l_seq F p L _ _ _ Hl He0). cbn [bind].
  pose proof (dec_count_rt _ _ _ Hrt vs a0 rest Hv He1) as Hd.
  destruct (N.eqb_spec (lenN vs) n) as [<-|Hne].
  - replace (N.min (lenN vs) (lenN vs + 1)) with (lenN vs) by lia. rewrite Hd. reflexivity.
  - set (m := N.min (lenN vs) (n + 1)).
    assert (Hs : exists x r, dec_count m (gdec F p o t) (a0 ++ rest) = Ok (x, r)).
    { replace (lenN vs) with (m + (lenN vs - m)) in Hd by lia.
      rewrite dec_count_split in Hd. inv_bind Hd. destruct a1 as [x r]. eauto. }
    destruct Hs as [x [r Hs]]. rewrite Hs. reflexivity.
Qed.

Lemma g_array_wrong F p o n t m l body : rt_laws F p ->
  m < 2 ^ usize_bits p -> f_seq_enc F m = Ok l -> m <> n ->
  forall v r, gdec F p o (TArray n t) (l ++ body) <> Ok (v, r).
Proof.
  intros L Hm Hl Hne v r. cbn [gdec]. rewrite (l_seq F p L _ _ _ Hm Hl). cbn [bind].
  destruct (dec_count _ _ _) as [[x q]| |]; cbn [bind]; try discriminate.
  destruct (N.eqb_spec m n); [contradiction|discriminate].
Qed.

Lemma g_tuple_short F p o ts m l body : rt_laws F p ->
  m < 2 ^ usize_bits p -> f_seq_enc F m = Ok l -> m < lenN ts ->
  forall v r, gdec F p o (TTup ts) (l ++ body) <> Ok (v, r).
Proof.
  intros L Hm Hl Hlt v r. cbn [gdec]. rewrite (l_seq F p L _ _ _ Hm Hl). cbn [bind].
  rewrite (proj2 (N.ltb_lt _ _) Hlt).
  destruct (dec_list _ _) as [[x q]| |]; cbn [bind]; discriminate.
Qed.

(** A longer tuple decodes to its prefix if the rest is skipped one by one. *)
Lemma g_tuple_long F p o okleaf skipk ts es vs ws bs rest :
  rt_laws F p -> skip_laws F p okleaf skipk ->
  (forall n bs, f_skip_rest F n bs = iterN n (fun s => f_skip F (snd s)) (tt, bs)) ->
  wf p (TTup (ts ++ es)) -> packs_ok p o (TTup (ts ++ es)) -> leaves okleaf (TTup es) = true ->
  length vs = length ts -> has_type p (TTup (ts ++ es)) (VList (vs ++ ws)) = true ->
  genc F p o (TTup (ts ++ es)) (VList (vs ++ ws)) = Ok bs -> 1 + lenN bs < 2 ^ usize_bits p ->
  gdec F p o (TTup ts) (bs ++ rest) = Ok (VList vs, rest).
Proof.
  intros L LS Hsr [Hw Hlo] Hp Hlv Hlen Hv He Hb. apply len_ok_lt in Hlo. rewrite allP_Forall in Hw.
  cbn [genc] in He. inv_bind He. inv_bind He. inversion He; subst. clear He.
  rewrite lenN_app in Hb. cbn [gdec]. rewrite <- app_assoc, (l_seq F p L _ _ _ Hlo He0). cbn [bind].
  rewrite (proj2 (N.ltb_ge _ _)) by (rewrite lenN_app; lia).
  rewrite map_app in He1. apply enc_list_app in He1; [|now rewrite map_length].
  destruct He1 as (b1 & b2 & E1 & E2 & ->). rewrite lenN_app in Hb. rewrite <- app_assoc.
  cbn [has_type] in Hv. rewrite map_app in Hv.
  assert (Hv' : all2 (map (has_type p) ts) vs = true /\ all2 (map (has_type p) es) ws = true).
  { clear - Hv Hlen. revert vs Hv Hlen. induction ts as [|t ts IH]; intros [|v vs] Hv Hl; try discriminate.
    - auto.
    - cbn in *. apply andb_true_iff in Hv. destruct Hv as [H1 H2]. rewrite H1. apply IH; auto. }
  destruct Hv' as [Hv1 Hv2].
  destruct Hp as [Hp Hc]. cbn [packs] in Hp, Hc.
  rewrite forallb_app in Hp. apply andb_true_iff in Hp. destruct Hp as [Hp1 Hp2].
  rewrite forallb_forall in Hp1. apply Forall_app in Hw. destruct Hw as [Hw1 Hw2]. rewrite Forall_forall in Hw1, Hw2.
  rewrite (dec_list_rt false (map (has_type p) ts) (map (genc F p o) ts) (map (gdec F p o) ts)) with (vs := vs);
    [|apply (rts_map ts (has_type p) (genc F p o) (gdec F p o))|assumption|discriminate|assumption].
  2:{ intros t Ht. apply g_roundtrip; auto. split; [auto|]. intros E. specialize (Hc E).
      rewrite forallb_forall in Hc. apply Hc. apply in_or_app. now left. }
  cbn [bind]. rewrite Hsr.
  replace (lenN (ts ++ es) - lenN ts) with (lenN es) by (rewrite lenN_app; lia).
  assert (Hs : iterN (lenN es) (fun s : unit * bytes => f_skip F (snd s)) (tt, b2 ++ rest) = Ok (tt, rest)).
  { cbn [leaves] in Hlv. rewrite forallb_forall in Hlv.
    assert (Hb2 : 1 + lenN b2 < 2 ^ usize_bits p) by lia.
    clear - LS Hw2 Hlv Hv2 E2 Hb2. unfold lenN at 1. rewrite iterN_of_nat.
    revert ws b2 Hv2 E2 Hb2. induction es as [|e es IH]; intros [|w ws] b2 Hv E Hb; try discriminate.
    - cbn in E. inversion E; subst. reflexivity.
    - cbn in Hv, E. apply andb_true_iff in Hv. destruct Hv as [H1 H2]. inv_bind E. inv_bind E. inversion E; subst.
      rewrite lenN_app in Hb. cbn [length iter_nat snd]. rewrite <- app_assoc.
      rewrite (g_skip F p o okleaf skipk LS e w a) by
        (auto; first [apply Hw2; now left | apply Hlv; now left | lia]).
      cbn [bind]. apply (IH (fun x Hx => Hw2 x (or_intror Hx)) (fun x Hx => Hlv x (or_intror Hx)) ws a0 H2 E1).
      lia. }
  match goal with |- bind ?x _ = _ => replace x with (@Ok (unit * bytes) (tt, rest)) by (symmetry; exact Hs) end.
  reflexivity.
Qed.
