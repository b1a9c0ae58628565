(** The methods of the descriptive format satisfy the laws of [FmtFacts], [FmtSafe] and
    [FmtStab]. *)
From Verif Require Import Base Options Int Utf8 Types Storage StorageSpec Fmt FmtSpec Desc
  BaseFacts IntSpec IntFacts TypesFacts StorageFacts DecFacts StorageSafe StabFacts FmtFacts FmtSafe FmtStab
  SkipFacts WireFacts.
From Coq Require Import ZifyBool ZifyNat ZifyN.
Local Open Scope N_scope.

(** ** Tags *)

Lemma dtag_all (P : dkind -> N -> bool) :
  (forall k, forallb (P k) (map N.of_nat (seq 0 32)) = true) -> forall k d, d < 32 -> P k d = true.
Proof.
  intros H k d Hd. specialize (H k). rewrite forallb_forall in H. apply H.
  apply in_map_iff. exists (N.to_nat d). split; [lia|]. apply in_seq. lia.
Qed.

Lemma dkind_eqb_eq a b : dkind_eqb a b = true <-> a = b.
Proof. destruct a, b; cbn; split; congruence. Qed.

Lemma dtag_kind_new k d : d < 32 -> dtag_kind (dtag k d) = k.
Proof.
  intros Hd. apply dkind_eqb_eq. revert k d Hd. apply dtag_all.
  intros []; vm_compute; reflexivity.
Qed.

Lemma dtag_data_new k d : d < 31 -> dtag_data (dtag k d) = Some d.
Proof.
  intros Hd. assert (H : (match dtag_data (dtag k d) with Some x => x =? d | None => d =? 31 end) = true).
  { assert (Hd' : d < 32) by lia. clear Hd. revert k d Hd'.
    apply (dtag_all (fun k d => match dtag_data (dtag k d) with Some x => x =? d | None => d =? 31 end)).
    intros []; vm_compute; reflexivity. }
  destruct (dtag_data (dtag k d)); [f_equal|]; lia.
Qed.

Lemma dtag_data_full k : dtag_data (dtag k 31) = None.
Proof. destruct k; reflexivity. Qed.

Lemma dtag_byte k d : d < 32 -> dtag k d < 256.
Proof.
  intros Hd. apply N.ltb_lt. revert k d Hd. apply dtag_all. intros []; vm_compute; reflexivity.
Qed.

Lemma dtag_data_lt b n : dtag_data b = Some n -> n < 31.
Proof.
  unfold dtag_data. change DDATA_MASK with (N.ones 5). rewrite N.land_ones. change (2 ^ 5) with 32.
  pose proof (N.mod_lt b 32 ltac:(lia)). change (N.ones 5) with 31.
  destruct (b mod 32 =? 31) eqn:E; [discriminate|]. intros H'; inversion H'; subst. lia.
Qed.

Lemma num_data_lt w k : num_data w k < 32.
Proof. destruct w, k; vm_compute; reflexivity. Qed.

Lemma num_data_kind w k : dtag_number (dtag DNumber (num_data w k)) = k.
Proof. destruct w, k; vm_compute; reflexivity. Qed.

(** ** Lengths *)

Lemma dlen_of_rt p o k n b rest : n < 2 ^ usize_bits p -> dlen_enc p o k n = Ok b ->
  exists t r, b ++ rest = t :: r /\ t < 256 /\ dtag_kind t = k /\ dlen_of p o t r = Ok (n, rest).
Proof.
  intros Hn. unfold dlen_enc, dlen_of. change DDATA_MASK with 31. destruct (n <? 31) eqn:E.
  - intros H; inversion H; subst. exists (dtag k n), rest.
    repeat split; [apply dtag_byte; lia|apply dtag_kind_new; lia|]. now rewrite dtag_data_new by lia.
  - intros H. inv_bind H. inversion H; subst. exists (dtag k 31), (a ++ rest).
    repeat split; [apply dtag_byte; lia|apply dtag_kind_new; lia|].
    rewrite dtag_data_full. eapply usize_roundtrip; eassumption.
Qed.

Lemma dlen_rt p o k n b rest : n < 2 ^ usize_bits p -> dlen_enc p o k n = Ok b ->
  dlen_dec p o k (b ++ rest) = Ok (n, rest).
Proof.
  intros Hn He. destruct (dlen_of_rt p o k n b rest Hn He) as (t & r & -> & _ & Hk & Hl).
  unfold dlen_dec. cbn [read_byte bind]. rewrite Hk, (proj2 (dkind_eqb_eq k k) eq_refl). exact Hl.
Qed.

Lemma dlen_ne p o k n b : dlen_enc p o k n = Ok b -> b <> [].
Proof.
  unfold dlen_enc. destruct (n <? DDATA_MASK); [intros H; inversion H; discriminate|].
  intros H. inv_bind H. inversion H; discriminate.
Qed.

Lemma dlen_total p o k n : lengths_fit p o -> n < 2 ^ usize_bits p ->
  exists b, dlen_enc p o k n = Ok b /\ bytes_ok b = true.
Proof.
  intros Hf Hn. unfold dlen_enc. change DDATA_MASK with 31. destruct (n <? 31) eqn:E.
  - eexists; split; [reflexivity|]. rewrite bytes_ok_cons. unfold byte_ok.
    pose proof (dtag_byte k n ltac:(lia)) as Hb. rewrite (proj2 (N.ltb_lt _ _) Hb). reflexivity.
  - destruct (usize_total p o n Hf Hn) as [b [Eb Ob]]. rewrite Eb. eexists; split; [reflexivity|].
    rewrite bytes_ok_cons, Ob. unfold byte_ok.
    pose proof (dtag_byte k 31 ltac:(lia)) as Hb. rewrite (proj2 (N.ltb_lt _ _) Hb). reflexivity.
Qed.

Lemma dlen_of_stab {pan : Prop} p o b : stab pan (fun n => n < 2 ^ usize_bits p) (dlen_of p o b).
Proof.
  pose proof (usize_bits_ge p) as Hub.
  assert (H6 : 63 < 2 ^ usize_bits p).
  { assert (2 ^ 16 <= 2 ^ usize_bits p) by (apply N.pow_le_mono_r; lia). change (2 ^ 16) with 65536 in *. lia. }
  unfold dlen_of. destruct (dtag_data b) as [n|] eqn:E; [|apply stab_usize].
  apply stab_ret. apply dtag_data_lt in E. lia.
Qed.

Lemma dlen_stab {pan : Prop} p o k : stab pan (fun n => n < 2 ^ usize_bits p) (dlen_dec p o k).
Proof.
  apply (stab_bind (fun b => b < 256)); [apply stab_read_byte|]. intros b Hb. cbn beta iota.
  destruct (dkind_eqb _ _); [|apply stab_err]. apply dlen_of_stab.
Qed.

(** ** Numbers *)

Lemma usize_iw_bits p : bits (usize_iw p) = usize_bits p.
Proof. unfold usize_iw, usize_bits, ptr_bits. destruct (ptr p); reflexivity. Qed.

Lemma typed_bytes w k v : bytes_ok (typed_enc (num_data w k) v) = true.
Proof.
  unfold typed_enc. rewrite bytes_ok_cons, cont_encode_bytes_ok. unfold byte_ok.
  pose proof (dtag_byte DNumber _ (num_data_lt w k)) as Hb. rewrite (proj2 (N.ltb_lt _ _) Hb). reflexivity.
Qed.

Lemma typed_rt w k tb v rest : v < 2 ^ tb ->
  typed_dec tb (typed_enc (num_data w k) v ++ rest) = Ok ((v, k), rest).
Proof.
  intros Hv. unfold typed_enc, typed_dec. cbn [app read_byte bind].
  rewrite (dtag_kind_new DNumber _ (num_data_lt w k)), (proj2 (dkind_eqb_eq DNumber DNumber) eq_refl).
  rewrite cont_roundtrip by assumption. cbn [bind]. now rewrite num_data_kind.
Qed.

Lemma tunsigned_rt w k v rest : k = NUnsigned \/ k = NFloat -> v < 2 ^ bits w ->
  tunsigned_dec (bits w) (tunsigned_enc w k v ++ rest) = Ok (v, rest).
Proof.
  intros Hk Hv. unfold tunsigned_dec, tunsigned_enc. rewrite typed_rt by assumption. cbn [bind snd fst].
  destruct Hk as [->| ->]; reflexivity.
Qed.

Lemma tsigned_rt w z rest : in_s (bits w) z ->
  tsigned_dec (bits w) (tsigned_enc w z ++ rest) = Ok (z, rest).
Proof.
  intros Hz. unfold tsigned_dec, tsigned_enc. pose proof (bits_ge8 w).
  rewrite typed_rt by (apply zig_encode_lt; [lia|assumption]). cbn [bind snd fst].
  rewrite zig_roundtrip by (lia || assumption). reflexivity.
Qed.

Lemma typed_stab {pan : Prop} tb : 8 <= tb -> stab pan (fun vk => fst vk < 2 ^ tb) (typed_dec tb).
Proof.
  intros Ht. apply (stab_bind (fun b => b < 256)); [apply stab_read_byte|]. intros b Hb. cbn beta iota.
  destruct (dkind_eqb _ _); [|apply stab_err].
  eapply stab_bind; [now apply stab_cont|]. intros v Hv. apply stab_ret. exact Hv.
Qed.

Lemma tunsigned_stab {pan : Prop} tb : 8 <= tb -> stab pan (fun v => v < 2 ^ tb) (tunsigned_dec tb).
Proof.
  intros Ht. eapply stab_bind; [now apply typed_stab|]. intros [v k] Hv. cbn [fst snd] in *.
  destruct k.
  - destruct (0 <=? zig_decode tb v)%Z eqn:E; [|apply stab_err]. apply stab_ret.
    pose proof (zig_decode_range tb v ltac:(lia) Hv) as Hr. unfold in_s in Hr.
    assert (2 ^ (Z.of_N tb - 1) <= 2 ^ Z.of_N tb)%Z by (apply Z.pow_le_mono_r; lia).
    apply N2Z.inj_lt. rewrite Z2N.id by lia. rewrite N2Z.inj_pow. change (Z.of_N 2) with 2%Z. lia.
  - now apply stab_ret.
  - now apply stab_ret.
  - apply stab_err.
Qed.

Lemma tsigned_stab {pan : Prop} tb : 8 <= tb -> stab pan (in_s tb) (tsigned_dec tb).
Proof.
  intros Ht. eapply stab_bind; [now apply typed_stab|]. intros [v k] Hv. cbn [fst snd] in *.
  destruct k.
  - apply stab_ret. apply zig_decode_range; [lia|assumption].
  - destruct (v <? 2 ^ (tb - 1)) eqn:E; [|apply stab_err]. apply stab_ret.
    unfold in_s. apply N.ltb_lt in E. apply N2Z.inj_lt in E. rewrite N2Z.inj_pow, N2Z.inj_sub in E by lia.
    change (Z.of_N 2) with 2%Z in E. change (Z.of_N 1) with 1%Z in E.
    assert (0 < 2 ^ (Z.of_N tb - 1))%Z by (apply Z.pow_pos_nonneg; lia). lia.
  - apply stab_err.
  - apply stab_err.
Qed.

(** ** Skipping *)

Lemma dskip_gskip p o n bs : dskip_n p o n bs = gskip (dskip_step p o) n bs.
Proof.
  unfold dskip_n, gskip. generalize (length bs) as f. intros f. revert n bs.
  induction f as [|f IH]; intros n bs; cbn [dskip_loop gloop]; destruct (n =? 0); try reflexivity.
  destruct (dskip_step p o n bs) as [[m r]| |]; cbn [bind]; try reflexivity. apply IH.
Qed.

Lemma shrinks_dlen p o b : shrinks (dlen_of p o b).
Proof. unfold dlen_of. destruct (dtag_data b); [apply shrinks_ret|apply shrinks_usize]. Qed.

Lemma dstep_strict p o n bs m r : dskip_step p o n bs = Ok (m, r) -> (length r < length bs)%nat.
Proof.
  unfold dskip_step. intros H. inv_bind H. destruct a as [b q]. apply read_byte_strict in H0.
  destruct (dtag_kind b).
  - discriminate.
  - inv_bind H. destruct a as [k r1]. inversion H; subst. apply shrinks_cont in H1. lia.
  - inv_bind H. destruct a as [k r1]. destruct (_ <? _); [|discriminate]. inversion H; subst. apply shrinks_dlen in H1. lia.
  - inv_bind H. destruct a as [k r1]. destruct (_ <? _); [|discriminate]. inversion H; subst. apply shrinks_dlen in H1. lia.
  - inv_bind H. destruct a as [k r1]. inv_bind H. destruct a as [h r2]. inversion H; subst.
    apply shrinks_dlen in H1. apply shrinks_read_bytes in H2. lia.
  - inv_bind H. destruct a as [k r1]. inv_bind H. destruct a as [h r2]. inversion H; subst.
    apply shrinks_dlen in H1. apply shrinks_read_bytes in H2. lia.
  - destruct (_ =? _).
    { destruct (_ <? _); [|discriminate]. inversion H; subst. lia. }
    destruct (_ =? _).
    { destruct (_ <? _); [|discriminate]. inversion H; subst. lia. }
    destruct (_ =? _).
    { inv_bind H. destruct a as [k r1]. inversion H; subst. apply shrinks_cont in H1. lia. }
    inversion H; subst. lia.
Qed.

Lemma dskip_0 p o bs : dskip_n p o 0 bs = Ok (tt, bs).
Proof. rewrite dskip_gskip. apply gskip_0. Qed.

Lemma dskip_unfold p o k bs : dskip_n p o (k + 1) bs =
  let* (m, r) := dskip_step p o (k + 1) bs in dskip_n p o m r.
Proof.
  rewrite dskip_gskip, gskip_step; [| | |lia].
  - destruct (dskip_step p o (k + 1) bs) as [[m r]| |]; cbn [bind]; try reflexivity.
    now rewrite dskip_gskip.
  - intros n b m r. apply dstep_strict.
  - reflexivity.
Qed.

Lemma dskip_stab p o n : stab True (fun _ => True) (dskip_n p o n).
Proof.
  assert (H : stab True (fun _ => True) (gskip (dskip_step p o) n)).
  { apply gskip_stab.
    - intros k b m r. apply dstep_strict.
    - reflexivity.
    - intros k _. unfold dskip_step.
      assert (Ha : forall x, stab True (fun _ : N => True)
        (fun r : bytes => if k + x <? 2 ^ usize_bits p then Ok (k + x - 1, r) else Panic)).
      { intros x. destruct (_ <? _); [now apply stab_ret|now apply stab_panic]. }
      apply (stab_bind (fun b => b < 256)); [apply stab_read_byte|]. intros b Hb. cbn beta iota.
      destruct (dtag_kind b).
      + apply stab_err.
      + eapply stab_bind; [apply (stab_cont 128); lia|]. intros h _. now apply stab_ret.
      + eapply stab_bind; [apply dlen_of_stab|]. intros x _. apply Ha.
      + eapply stab_bind; [apply dlen_of_stab|]. intros x _. apply Ha.
      + eapply stab_bind; [apply dlen_of_stab|]. intros v _. cbn beta iota.
        eapply stab_bind; [apply stab_read_bytes|]. intros h _. now apply stab_ret.
      + eapply stab_bind; [apply dlen_of_stab|]. intros v _. cbn beta iota.
        eapply stab_bind; [apply stab_read_bytes|]. intros h _. now apply stab_ret.
      + destruct (_ =? _); [apply Ha|]. destruct (_ =? _); [apply Ha|]. destruct (_ =? _).
        * eapply stab_bind; [apply (stab_cont 32); lia|]. intros h _. now apply stab_ret.
        * now apply stab_ret. }
  intros bs ext Hok. rewrite !dskip_gskip. now apply H.
Qed.

Lemma dskip_seq p o k n l rest : k + 1 + n < 2 ^ usize_bits p -> dlen_enc p o DSequence n = Ok l ->
  dskip_n p o (k + 1) (l ++ rest) = dskip_n p o (k + n) rest.
Proof.
  intros Hn He. rewrite dskip_unfold.
  destruct (dlen_of_rt p o DSequence n l rest ltac:(lia) He) as (t & r & -> & _ & Hk & Hl).
  unfold dskip_step. cbn [read_byte bind]. rewrite Hk, Hl. cbn [bind].
  rewrite (proj2 (N.ltb_lt _ _) Hn). cbn [bind]. f_equal. lia.
Qed.

Lemma dskip_map p o k n l rest : k + 1 + 2 * n < 2 ^ usize_bits p -> dlen_enc p o DMap n = Ok l ->
  dskip_n p o (k + 1) (l ++ rest) = dskip_n p o (k + 2 * n) rest.
Proof.
  intros Hn He. rewrite dskip_unfold.
  destruct (dlen_of_rt p o DMap n l rest ltac:(lia) He) as (t & r & -> & _ & Hk & Hl).
  unfold dskip_step. cbn [read_byte bind]. rewrite Hk, Hl. cbn [bind].
  rewrite (proj2 (N.ltb_lt _ _) Hn). cbn [bind]. f_equal. lia.
Qed.

Lemma dskip_prefix p o kd k n l body rest : kd = DBytes \/ kd = DString ->
  n < 2 ^ usize_bits p -> dlen_enc p o kd n = Ok l ->
  lenN body = n -> dskip_n p o (k + 1) (l ++ body ++ rest) = dskip_n p o k rest.
Proof.
  intros Hkd Hn He Hb. rewrite dskip_unfold.
  destruct (dlen_of_rt p o kd n l (body ++ rest) Hn He) as (t & r & -> & _ & Hk & Hl).
  unfold dskip_step. cbn [read_byte bind]. rewrite Hk.
  assert (E : (let* (n, r') := dlen_of p o t r in let* (_, r'') := read_bytes n r' in Ok (k + 1 - 1, r'')) = Ok (k, rest)).
  { rewrite Hl. cbn [bind]. unfold read_bytes. rewrite <- Hb, take_opt_app. cbn [bind]. do 2 f_equal. lia. }
  destruct Hkd as [->| ->]; rewrite E; reflexivity.
Qed.

Lemma dskip_typed p o w kd k v rest : v < 2 ^ 128 ->
  dskip_n p o (k + 1) (typed_enc (num_data w kd) v ++ rest) = dskip_n p o k rest.
Proof.
  intros Hv. rewrite dskip_unfold. unfold dskip_step, typed_enc. cbn [app read_byte bind].
  rewrite (dtag_kind_new DNumber _ (num_data_lt w kd)).
  rewrite cont_roundtrip by assumption. cbn [bind]. f_equal. lia.
Qed.

Lemma dskip_mark p o k m rest : m = M_NONE \/ m = M_TRUE \/ m = M_FALSE \/ m = M_UNIT ->
  dskip_n p o (k + 1) (dtag DMark m :: rest) = dskip_n p o k rest.
Proof.
  intros Hm. rewrite dskip_unfold.
  assert (E : dskip_step p o (k + 1) (dtag DMark m :: rest) = Ok (k + 1 - 1, rest)).
  { unfold dskip_step. destruct Hm as [->|[->|[->| ->]]]; reflexivity. }
  rewrite E. cbn [bind]. f_equal. lia.
Qed.

(** ** Leaves *)

Lemma dleaf_rt p o t : leaf t = true -> wf p t ->
  rt false (has_type p t) (dleaf_enc p o t) (dleaf_dec p o t).
Proof.
  intros Hl Hw v bs rest Hv _ He. pose proof (usize_bits_ge p) as Hub.
  destruct t; try discriminate Hl; cbn [dleaf_enc dleaf_dec] in *.
  - vcase v Hv. inversion He; subst. unfold dskip.
    assert (E : dskip_n p o 1 ([dtag DMark M_UNIT] ++ rest) = Ok (tt, rest)).
    { change 1 with (0 + 1) at 1. rewrite dskip_unfold. cbn. apply dskip_0. }
    rewrite E. reflexivity.
  - vcase v Hv. inversion He; subst. destruct b; reflexivity.
  - vcase v Hv. inversion He; subst. cbn [app read_byte bind]. rewrite N.eqb_refl.
    rewrite cont_roundtrip by (now apply char_lt). cbn [bind]. now rewrite Hv.
  - vcase v Hv. inversion He; subst. rewrite tunsigned_rt by (auto; lia). reflexivity.
  - vcase v Hv. inversion He; subst. apply in_sb_s in Hv. rewrite tsigned_rt by assumption. reflexivity.
  - vcase v Hv. inversion He; subst. rewrite <- usize_iw_bits in *. rewrite tunsigned_rt by (auto; lia). reflexivity.
  - vcase v Hv. inversion He; subst. apply in_sb_s in Hv. rewrite <- usize_iw_bits in *.
    rewrite tsigned_rt by assumption. reflexivity.
  - vcase v Hv. inversion He; subst. change 32 with (bits W32). rewrite tunsigned_rt by (auto; cbn; lia). reflexivity.
  - vcase v Hv. inversion He; subst. change 64 with (bits W64). rewrite tunsigned_rt by (auto; cbn; lia). reflexivity.
  - vcase v Hv. apply andb_true_iff in Hv. destruct Hv as [Hv Hz]. inversion He; subst.
    rewrite tunsigned_rt by (auto; lia). cbn [bind]. destruct (n =? 0); [discriminate|reflexivity].
  - vcase v Hv. rewrite !andb_true_iff in Hv. destruct Hv as [[Hb Hu] Hlen]. apply len_ok_lt in Hlen.
    inv_bind He. inversion He; subst. rewrite <- app_assoc, (dlen_rt p o DString (lenN bs0) a) by assumption. cbn [bind].
    unfold read_bytes. rewrite take_opt_app. cbn [bind]. now rewrite Hu.
  - vcase v Hv. rewrite !andb_true_iff in Hv. destruct Hv as [Hb Hlen]. apply len_ok_lt in Hlen.
    inv_bind He. inversion He; subst. rewrite <- app_assoc, (dlen_rt p o DBytes (lenN bs0) a) by assumption. cbn [bind].
    unfold read_bytes. rewrite take_opt_app. reflexivity.
  - vcase v Hv. rewrite !andb_true_iff in Hv. destruct Hv as [Hb Hlen]. cbn [wf] in Hw. apply N.eqb_eq in Hlen. subst n.
    inv_bind He. inversion He; subst. rewrite <- app_assoc, (dlen_rt p o DBytes (lenN bs0) a) by assumption. cbn [bind].
    rewrite N.eqb_refl. unfold read_bytes. rewrite take_opt_app. reflexivity.
Qed.

Lemma desc_rt_laws p o : rt_laws (descriptive p o) p.
Proof.
  constructor; cbn [descriptive f_leaf_enc f_leaf_dec f_seq_enc f_seq_dec f_map_enc f_map_dec f_none f_some f_opt_dec
    f_var f_var_dec f_pack_enc f_pack_dec f_skip f_skip_rest].
  - intros t Hl Hw. now apply dleaf_rt.
  - intros n b rest Hn He. now apply dlen_rt.
  - intros n b rest Hn He. now apply dlen_rt.
  - intros n b rest Hn He. now apply dlen_rt.
  - reflexivity.
  - reflexivity.
  - reflexivity.
  - reflexivity.
Qed.

(** ** Totality *)

Lemma desc_tot_laws p o : lengths_fit p o -> tot_laws (descriptive p o) p.
Proof.
  intros Hf. pose proof (usize_bits_ge p) as Hub.
  constructor; cbn [descriptive f_leaf_enc f_leaf_dec f_seq_enc f_seq_dec f_map_enc f_map_dec f_none f_some f_opt_dec
    f_var f_var_dec f_pack_enc f_pack_dec f_skip f_skip_rest]; try reflexivity.
  - intros t Hl Hw v Hv.
    assert (Hpre : forall k bs, bytes_ok bs = true -> lenN bs < 2 ^ usize_bits p ->
       exists b, (let* l := dlen_enc p o k (lenN bs) in Ok (l ++ bs)) = Ok b /\ bytes_ok b = true).
    { intros k bs Hb Hlen. destruct (dlen_total p o k _ Hf Hlen) as [l [El Ol]]. rewrite El. cbn [bind].
      eexists; split; [reflexivity|]. now rewrite bytes_ok_app, Ol, Hb. }
    destruct t; try discriminate Hl; cbn [dleaf_enc].
    + vcase v Hv. now eexists.
    + vcase v Hv. destruct b; now eexists.
    + vcase v Hv. eexists; split; [reflexivity|]. rewrite bytes_ok_cons, cont_encode_bytes_ok. reflexivity.
    + vcase v Hv. eexists; split; [reflexivity|apply typed_bytes].
    + vcase v Hv. eexists; split; [reflexivity|apply typed_bytes].
    + vcase v Hv. eexists; split; [reflexivity|apply typed_bytes].
    + vcase v Hv. eexists; split; [reflexivity|apply typed_bytes].
    + vcase v Hv. eexists; split; [reflexivity|apply typed_bytes].
    + vcase v Hv. eexists; split; [reflexivity|apply typed_bytes].
    + vcase v Hv. eexists; split; [reflexivity|apply typed_bytes].
    + vcase v Hv. rewrite !andb_true_iff in Hv. destruct Hv as [[Hb _] Hlen]. apply len_ok_lt in Hlen. now apply Hpre.
    + vcase v Hv. rewrite !andb_true_iff in Hv. destruct Hv as [Hb Hlen]. apply len_ok_lt in Hlen. now apply Hpre.
    + vcase v Hv. rewrite !andb_true_iff in Hv. destruct Hv as [Hb Hlen]. cbn [wf] in Hw. apply N.eqb_eq in Hlen. subst n.
      now apply Hpre.
  - intros n Hn. now apply dlen_total.
  - intros n Hn. apply dlen_total; [assumption|lia].
  - intros n Hn. now apply dlen_total.
Qed.

Lemma desc_skip_laws p o : skip_laws (descriptive p o) p (fun _ => true) (dskip_n p o).
Proof.
  pose proof (usize_bits_ge p) as Hub.
  assert (Hus : 2 ^ usize_bits p <= 2 ^ 128).
  { apply N.pow_le_mono_r; [lia|]. unfold usize_bits, ptr_bits. destruct (ptr p); lia. }
  constructor; cbn [descriptive f_leaf_enc f_leaf_dec f_seq_enc f_seq_dec f_map_enc f_map_dec f_none f_some f_opt_dec
    f_var f_var_dec f_pack_enc f_pack_dec f_skip f_skip_rest].
  - reflexivity.
  - apply dskip_0.
  - intros t v b k rest Hl _ Hw Hv He Hk.
    assert (Hu : forall w kd n, n < 2 ^ bits w -> Ok (typed_enc (num_data w kd) n) = Ok b ->
              b <> [] /\ dskip_n p o (k + 1) (b ++ rest) = dskip_n p o k rest).
    { intros w kd n Hn E. inversion E; subst. split; [discriminate|]. apply dskip_typed.
      pose proof (bits_le w). lia. }
    assert (Hpre : forall kd bs, kd = DBytes \/ kd = DString -> lenN bs < 2 ^ usize_bits p ->
              (let* l := dlen_enc p o kd (lenN bs) in Ok (l ++ bs)) = Ok b ->
              b <> [] /\ dskip_n p o (k + 1) (b ++ rest) = dskip_n p o k rest).
    { intros kd bs Hkd Hn E. inv_bind E. inversion E; subst. split.
      - intros H. apply app_eq_nil in H. now apply (dlen_ne _ _ _ _ _ E0).
      - rewrite <- app_assoc. now apply (dskip_prefix p o kd k (lenN bs)). }
    destruct t; try discriminate Hl; cbn [dleaf_enc] in *.
    + vcase v Hv. inversion He; subst. split; [discriminate|].
      apply dskip_mark. auto.
    + vcase v Hv. inversion He; subst. split; [discriminate|].
      destruct b0; apply dskip_mark; auto.
    + vcase v Hv. inversion He; subst. split; [discriminate|]. rewrite dskip_unfold.
      unfold dskip_step. cbn [app read_byte bind].
      rewrite (dtag_kind_new DMark M_CHAR ltac:(reflexivity)).
      change (dtag_mark (dtag DMark M_CHAR)) with M_CHAR. cbn [N.eqb M_CHAR M_VARIANT M_SOME Pos.eqb].
      rewrite cont_roundtrip by (now apply char_lt). cbn [bind]. f_equal. lia.
    + vcase v Hv. apply (Hu w NUnsigned n); [lia|assumption].
    + vcase v Hv. apply in_sb_s in Hv. apply (Hu w NSigned (zig_encode (bits w) z)); [|assumption].
      apply zig_encode_lt; [pose proof (bits_ge8 w); lia|exact Hv].
    + vcase v Hv. apply (Hu (usize_iw p) NUnsigned n); [rewrite usize_iw_bits; lia|assumption].
    + vcase v Hv. apply in_sb_s in Hv. apply (Hu (usize_iw p) NSigned (zig_encode (bits (usize_iw p)) z)); [|assumption].
      rewrite usize_iw_bits. apply zig_encode_lt; [lia|exact Hv].
    + vcase v Hv. apply (Hu W32 NFloat n); [cbn; lia|assumption].
    + vcase v Hv. apply (Hu W64 NFloat n); [cbn; lia|assumption].
    + vcase v Hv. apply (Hu w NUnsigned n); [lia|assumption].
    + vcase v Hv. rewrite !andb_true_iff in Hv. destruct Hv as [[_ _] Hn]. apply len_ok_lt in Hn. apply (Hpre DString bs); auto.
    + vcase v Hv. rewrite !andb_true_iff in Hv. destruct Hv as [_ Hn]. apply len_ok_lt in Hn. apply (Hpre DBytes bs); auto.
    + vcase v Hv. rewrite !andb_true_iff in Hv. destruct Hv as [_ Hn]. cbn [wf] in Hw. apply N.eqb_eq in Hn. subst n.
      apply (Hpre DBytes bs); auto.
  - intros n b k rest He Hk. split; [now apply dlen_ne in He|]. apply dskip_seq; [lia|assumption].
  - intros n b He. now apply dlen_ne in He.
  - intros n b k rest He Hk. split; [now apply dlen_ne in He|]. apply dskip_map; [lia|assumption].
  - intros n b He. now apply dlen_ne in He.
  - intros n b body k rest He Hb Hn Hk. split; [now apply dlen_ne in He|]. apply (dskip_prefix p o DBytes k n); auto.
  - intros k rest Hk. split; [discriminate|]. apply dskip_mark. auto.
  - intros k rest Hk. split; [discriminate|]. rewrite dskip_unfold. unfold dskip_step. cbn [app read_byte bind].
    rewrite (dtag_kind_new DMark M_SOME ltac:(reflexivity)).
    change (dtag_mark (dtag DMark M_SOME)) with M_SOME. cbn [N.eqb M_VARIANT M_SOME Pos.eqb].
    rewrite (proj2 (N.ltb_lt _ _)) by lia. cbn [bind]. f_equal. lia.
  - intros k rest Hk. split; [discriminate|]. rewrite dskip_unfold. unfold dskip_step. cbn [app read_byte bind].
    rewrite (dtag_kind_new DMark M_VARIANT ltac:(reflexivity)).
    change (dtag_mark (dtag DMark M_VARIANT)) with M_VARIANT. cbn [N.eqb M_VARIANT Pos.eqb].
    rewrite (proj2 (N.ltb_lt _ _)) by lia. cbn [bind]. f_equal. lia.
Qed.

(** ** Arbitrary input *)

Lemma desc_stab_laws p o : stab_laws (descriptive p o) p.
Proof.
  pose proof (usize_bits_ge p) as Hub.
  assert (Hpre : forall k, stab False (fun h => bytes_ok h = true /\ lenN h < 2 ^ usize_bits p)
     (fun bs => let* (n, r) := dlen_dec p o k bs in read_bytes n r)).
  { intros k. eapply stab_bind; [apply dlen_stab|]. intros n Hn; cbn beta in Hn. cbn beta iota.
    eapply stab_weaken; [|apply stab_read_bytes]. intros h [H1 H2]. split; [assumption|rewrite H2; exact Hn]. }
  constructor; cbn [descriptive f_leaf_enc f_leaf_dec f_seq_enc f_seq_dec f_map_enc f_map_dec f_none f_some f_opt_dec
    f_var f_var_dec f_pack_enc f_pack_dec f_skip f_skip_rest].
  - intros t Hl Hne Hw. destruct t; try discriminate Hl; cbn [dleaf_dec]; try congruence; cbn [wf] in Hw.
    + apply (stab_bind (fun b => b < 256)); [apply stab_read_byte|]. intros b Hb. cbn beta iota.
      destruct (b =? _); [now apply stab_ret|]. destruct (b =? _); [now apply stab_ret|apply stab_err].
    + apply (stab_bind (fun b => b < 256)); [apply stab_read_byte|]. intros b Hb. cbn beta iota.
      destruct (b =? _); [|apply stab_err].
      eapply stab_bind; [apply (stab_cont 32); lia|]. intros n Hn; cbn beta in Hn. cbn beta iota.
      destruct (char_valid n) eqn:E; [now apply stab_ret|apply stab_err].
    + eapply stab_bind; [apply tunsigned_stab, bits_ge8|]. intros n Hn; cbn beta in Hn. apply stab_ret. cbn [has_type]. lia.
    + eapply stab_bind; [apply tsigned_stab, bits_ge8|]. intros n Hn. apply stab_ret. cbn [has_type]. now apply in_sb_s.
    + eapply stab_bind; [apply (tunsigned_stab (usize_bits p)); lia|]. intros n Hn; cbn beta in Hn. apply stab_ret. cbn [has_type]. lia.
    + eapply stab_bind; [apply (tsigned_stab (usize_bits p)); lia|]. intros n Hn. apply stab_ret. cbn [has_type]. now apply in_sb_s.
    + eapply stab_bind; [apply (tunsigned_stab 32); lia|]. intros n Hn; cbn beta in Hn. apply stab_ret. cbn [has_type]. cbn in Hn. lia.
    + eapply stab_bind; [apply (tunsigned_stab 64); lia|]. intros n Hn; cbn beta in Hn. apply stab_ret. cbn [has_type]. cbn in Hn. lia.
    + eapply stab_bind; [apply tunsigned_stab, bits_ge8|]. intros n Hn; cbn beta in Hn. cbn beta iota.
      destruct (n =? 0) eqn:E; [apply stab_err|]. apply stab_ret. cbn [has_type]. rewrite E. lia.
    + eapply stab_bind; [apply Hpre|]. intros h [H1 H2]. cbn beta iota.
      destruct (utf8_valid h) eqn:E; [|apply stab_err]. apply stab_ret. cbn [has_type]. rewrite H1, E. unfold len_ok. lia.
    + eapply stab_bind; [apply Hpre|]. intros h [H1 H2]. apply stab_ret. cbn [has_type]. rewrite H1. unfold len_ok. lia.
    + eapply stab_bind; [apply dlen_stab|]. intros m Hm; cbn beta in Hm. cbn beta iota.
      destruct (m =? n) eqn:E; [|apply stab_err].
      eapply stab_bind; [apply stab_read_bytes|]. intros h [H1 H2]. apply stab_ret. cbn [has_type]. rewrite H1. lia.
  - eapply stab_bind; [apply (dskip_stab p o 1)|]. intros u _. now apply stab_ret.
  - apply dlen_stab.
  - apply dlen_stab.
  - eapply stab_weaken; [|apply dlen_stab]. auto.
  - apply (stab_bind (fun b => b < 256)); [apply stab_read_byte|]. intros b Hb. cbn beta iota.
    destruct (b =? _); [now apply stab_ret|]. destruct (b =? _); [now apply stab_ret|apply stab_err].
  - apply (stab_bind (fun b => b < 256)); [apply stab_read_byte|]. intros b Hb. cbn beta iota.
    destruct (b =? _); [now apply stab_ret|apply stab_err].
  - apply (dskip_stab p o 1).
  - intros n. unfold dskip_rest. destruct (n =? 0); [now apply stab_ret|apply (dskip_stab p o 1)].
Qed.

(** ** Conversions *)

Lemma enc_int p o t s w z : int_ty p t = Some (s, w) -> in_range s w z ->
  exists iw, bits iw = w /\ descriptive_encode p o t (int_val s z) =
    Ok (typed_enc (num_data iw (if s then NSigned else NUnsigned))
         (if s then zig_encode w z else Z.to_N z)).
Proof.
  intros Ht Hz. pose proof (usize_iw_bits p) as Hu.
  destruct t; try discriminate; inversion Ht; subst; unfold int_val.
  - exists w0. auto.
  - exists w0. auto.
  - exists (usize_iw p). auto.
  - exists (usize_iw p). split; [auto|]. rewrite <- Hu. reflexivity.
Qed.

Lemma dec_int p o t s w bs : int_ty p t = Some (s, w) ->
  descriptive_decode p o t bs =
    if s then (let* (z, r) := tsigned_dec w bs in Ok (VZ z, r))
    else (let* (n, r) := tunsigned_dec w bs in Ok (VN n, r)).
Proof. intros Ht. destruct t; try discriminate; inversion Ht; subst; reflexivity. Qed.

Lemma int_ty_ge p t s w : int_ty p t = Some (s, w) -> 8 <= w.
Proof.
  pose proof (usize_bits_ge p).
  destruct t; try discriminate; intros E; inversion E; subst; try apply bits_ge8; lia.
Qed.

Lemma convert p o t s w t' s' w' z bs rest :
  int_ty p t = Some (s, w) -> int_ty p t' = Some (s', w') ->
  in_range s w z -> in_range s' w' z ->
  (s = true -> s' = false -> (z < 2 ^ (Z.of_N w' - 1))%Z) ->
  descriptive_encode p o t (int_val s z) = Ok bs ->
  descriptive_decode p o t' (bs ++ rest) = Ok (int_val s' z, rest).
Proof.
  intros Ht Ht' Hz Hz' Hc He. pose proof (int_ty_ge _ _ _ _ Ht) as Hw. pose proof (int_ty_ge _ _ _ _ Ht') as Hw'.
  destruct (enc_int p o t s w z Ht Hz) as (iw & _ & E). rewrite E in He. inversion He; subst bs. clear He E.
  rewrite (dec_int p o t' s' w' _ Ht').
  pose proof (of_N_pow w') as P'. pose proof (pow_half w' ltac:(lia)) as Q'. pose proof (of_N_pow1 w' ltac:(lia)) as R'.
  destruct s, s'; unfold in_range, int_val in *; unfold tsigned_dec, tunsigned_dec.
  - assert (Ez : zig_encode w z = zig_encode w' z).
    { apply N2Z.inj. rewrite !zig_encode_closed by (lia || assumption). reflexivity. }
    rewrite Ez, typed_rt by (apply zig_encode_lt; [lia|assumption]). cbn [bind fst snd].
    rewrite zig_roundtrip by (lia || assumption). reflexivity.
  - specialize (Hc eq_refl eq_refl).
    assert (Hs : in_s w' z) by (unfold in_s; lia).
    assert (Ez : zig_encode w z = zig_encode w' z).
    { apply N2Z.inj. rewrite !zig_encode_closed by (lia || assumption). reflexivity. }
    rewrite Ez, typed_rt by (apply zig_encode_lt; [lia|assumption]). cbn [bind fst snd].
    rewrite zig_roundtrip by (lia || assumption). rewrite (proj2 (Z.leb_le _ _)) by lia. reflexivity.
  - rewrite typed_rt by lia. cbn [bind fst snd]. rewrite (proj2 (N.ltb_lt _ _)) by lia.
    cbn [bind]. rewrite Z2N.id by lia. reflexivity.
  - rewrite typed_rt by lia. reflexivity.
Qed.

Lemma convert_reject p o t s w t' s' w' z bs rest :
  int_ty p t = Some (s, w) -> int_ty p t' = Some (s', w') ->
  in_range s w z -> ~ in_range s' w' z -> (0 < z -> z < 2 ^ Z.of_N w')%Z -> s <> s' ->
  (z < 0 -> - 2 ^ (Z.of_N w' - 1) <= z)%Z ->
  descriptive_encode p o t (int_val s z) = Ok bs ->
  descriptive_decode p o t' (bs ++ rest) = Err.
Proof.
  intros Ht Ht' Hz Hz' Hup Hs Hlo He. pose proof (int_ty_ge _ _ _ _ Ht) as Hw. pose proof (int_ty_ge _ _ _ _ Ht') as Hw'.
  destruct (enc_int p o t s w z Ht Hz) as (iw & _ & E). rewrite E in He. inversion He; subst bs. clear He E.
  rewrite (dec_int p o t' s' w' _ Ht').
  pose proof (of_N_pow w') as P'. pose proof (pow_half w' ltac:(lia)) as Q'. pose proof (of_N_pow1 w' ltac:(lia)) as R'.
  destruct s, s'; try congruence; unfold in_range, int_val in *; unfold tsigned_dec, tunsigned_dec.
  - assert (Hs' : in_s w' z).
    { unfold in_s. destruct (Z.ltb_spec z 0); lia. }
    assert (Ez : zig_encode w z = zig_encode w' z).
    { apply N2Z.inj. rewrite !zig_encode_closed by (lia || assumption). reflexivity. }
    rewrite Ez, typed_rt by (apply zig_encode_lt; [lia|assumption]). cbn [bind fst snd].
    rewrite zig_roundtrip by (lia || assumption). rewrite (proj2 (Z.leb_gt _ _)) by lia. reflexivity.
  - rewrite typed_rt by lia. cbn [bind fst snd]. rewrite (proj2 (N.ltb_ge _ _)) by lia. reflexivity.
Qed.
