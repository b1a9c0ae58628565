(** The methods of the wire format satisfy the laws of [FmtFacts], [FmtSafe] and [FmtStab]. *)
From Verif Require Import Base Options Int Utf8 Types Storage StorageSpec Fmt FmtSpec Wire
  BaseFacts IntSpec IntFacts TypesFacts StorageFacts DecFacts StorageSafe StabFacts FmtFacts FmtSafe FmtStab
  SkipFacts.
From Coq Require Import ZifyBool ZifyNat ZifyN.
Local Open Scope N_scope.

(** ** Tags *)

Lemma wtag_all (P : wkind -> N -> bool) :
  (forall k, forallb (P k) (map N.of_nat (seq 0 64)) = true) -> forall k d, d < 64 -> P k d = true.
Proof.
  intros H k d Hd. specialize (H k). rewrite forallb_forall in H. apply H.
  apply in_map_iff. exists (N.to_nat d). split; [lia|]. apply in_seq. lia.
Qed.

Lemma wkind_eqb_eq a b : wkind_eqb a b = true <-> a = b.
Proof. destruct a, b; cbn; split; congruence. Qed.

Lemma wtag_kind_new k d : d < 64 -> wtag_kind (wtag k d) = k.
Proof.
  intros Hd. apply wkind_eqb_eq. revert k d Hd. apply wtag_all.
  intros []; vm_compute; reflexivity.
Qed.

Lemma wtag_data_new k d : d < 63 -> wtag_data (wtag k d) = Some d.
Proof.
  intros Hd. assert (H : (match wtag_data (wtag k d) with Some x => x =? d | None => d =? 63 end) = true).
  { assert (Hd' : d < 64) by lia. clear Hd. revert k d Hd'.
    apply (wtag_all (fun k d => match wtag_data (wtag k d) with Some x => x =? d | None => d =? 63 end)).
    intros []; vm_compute; reflexivity. }
  destruct (wtag_data (wtag k d)); [f_equal|]; lia.
Qed.

Lemma wtag_data_full k : wtag_data (wtag k 63) = None.
Proof. destruct k; reflexivity. Qed.

Lemma wtag_byte k d : d < 64 -> wtag k d < 256.
Proof.
  intros Hd. apply N.ltb_lt. revert k d Hd. apply wtag_all. intros []; vm_compute; reflexivity.
Qed.

Lemma wtag_data_lt b n : wtag_data b = Some n -> n < 63.
Proof.
  unfold wtag_data. change WDATA_MASK with (N.ones 6). rewrite N.land_ones. change (2 ^ 6) with 64.
  pose proof (N.mod_lt b 64 ltac:(lia)). change (N.ones 6) with 63.
  destruct (b mod 64 =? 63) eqn:E; [discriminate|]. intros H'; inversion H'; subst. lia.
Qed.

Lemma wtag_inj k d k' d' : d < 64 -> d' < 64 -> (wtag k d =? wtag k' d') = (wkind_eqb k k' && (d =? d')).
Proof.
  intros Hd Hd'. destruct (N.eqb_spec d d') as [<-|Hne].
  - destruct (wkind_eqb k k') eqn:E.
    + apply wkind_eqb_eq in E. subst. rewrite N.eqb_refl. reflexivity.
    + cbn. apply N.eqb_neq. intros H. assert (k = k') by (rewrite <- (wtag_kind_new k d), H, wtag_kind_new; auto).
      apply wkind_eqb_eq in H0. congruence.
  - rewrite andb_false_r. apply N.eqb_neq. intros H. apply Hne.
    destruct (N.eq_dec d 63) as [->|N1], (N.eq_dec d' 63) as [->|N2]; try reflexivity.
    + pose proof (wtag_data_full k) as E. change WDATA_MASK with 63 in E. rewrite H, wtag_data_new in E by lia. discriminate.
    + pose proof (wtag_data_full k') as E. change WDATA_MASK with 63 in E. rewrite <- H, wtag_data_new in E by lia. discriminate.
    + pose proof (wtag_data_new k d ltac:(lia)) as E. rewrite H, wtag_data_new in E by lia. congruence.
Qed.

(** ** Lengths *)

Lemma wlen_rt p o k n b rest : n < 2 ^ usize_bits p -> wlen_enc p o k n = Ok b ->
  wlen_dec p o k (b ++ rest) = Ok (n, rest).
Proof.
  intros Hn. unfold wlen_enc, wlen_dec. change WDATA_MASK with 63. destruct (n <? 63) eqn:E.
  - intros H; inversion H; subst. cbn [app read_byte bind].
    rewrite wtag_kind_new, (proj2 (wkind_eqb_eq k k) eq_refl), wtag_data_new by lia. reflexivity.
  - intros H. inv_bind H. inversion H; subst. cbn [app read_byte bind].
    rewrite wtag_kind_new, (proj2 (wkind_eqb_eq k k) eq_refl) by lia.
    rewrite (wtag_data_full k). eapply usize_roundtrip; eassumption.
Qed.

Lemma wlen_ne p o k n b : wlen_enc p o k n = Ok b -> b <> [].
Proof.
  unfold wlen_enc. destruct (n <? WDATA_MASK); [intros H; inversion H; discriminate|].
  intros H. inv_bind H. inversion H; discriminate.
Qed.

Lemma wlen_total p o k n : lengths_fit p o -> n < 2 ^ usize_bits p ->
  exists b, wlen_enc p o k n = Ok b /\ bytes_ok b = true.
Proof.
  intros Hf Hn. unfold wlen_enc. change WDATA_MASK with 63. destruct (n <? 63) eqn:E.
  - eexists; split; [reflexivity|]. cbn. unfold byte_ok. pose proof (wtag_byte k n ltac:(lia)). lia.
  - destruct (usize_total p o n Hf Hn) as [b [Eb Ob]]. rewrite Eb. eexists; split; [reflexivity|].
    rewrite bytes_ok_cons, Ob. unfold byte_ok. pose proof (wtag_byte k 63 ltac:(lia)). lia.
Qed.

Lemma wlen_stab {pan : Prop} p o k : stab pan (fun n => n < 2 ^ usize_bits p) (wlen_dec p o k).
Proof.
  pose proof (usize_bits_ge p) as Hub.
  assert (H6 : 63 < 2 ^ usize_bits p).
  { assert (2 ^ 16 <= 2 ^ usize_bits p) by (apply N.pow_le_mono_r; lia). change (2 ^ 16) with 65536 in *. lia. }
  apply (stab_bind (fun b => b < 256)); [apply stab_read_byte|]. intros b Hb. cbn beta iota.
  destruct (wkind_eqb _ _); [|apply stab_err].
  destruct (wtag_data b) as [n|] eqn:E; [|apply stab_usize].
  apply stab_ret. apply wtag_data_lt in E. lia.
Qed.

Lemma wmap_rt p o n b rest : n < 2 ^ usize_bits p -> wmap_enc p o n = Ok b ->
  wmap_dec p o (b ++ rest) = Ok (n, rest).
Proof.
  intros Hn. unfold wmap_enc, wmap_dec. destruct (2 * n <? 2 ^ usize_bits p) eqn:E; [|discriminate].
  intros H. rewrite (wlen_rt p o Sequence (2 * n) b rest); [|lia|assumption]. cbn [bind].
  f_equal. f_equal. lia.
Qed.

(** ** Integers *)

Lemma stab_cont {pan : Prop} tb : 8 <= tb -> stab pan (fun v => v < 2 ^ tb) (cont_decode tb).
Proof.
  intros Ht. apply stab_of; [|apply cont_decode_ext]. intros bs Hok.
  destruct (cont_decode tb bs) as [[v r]| |] eqn:E; auto.
  - apply cont_decode_sound in E; auto. destruct E as [H1 [pre [H2 _]]]. split; [assumption|now exists pre].
  - now apply cont_decode_no_panic in E.
Qed.

Lemma stab_read_int {pan : Prop} p bo n : stab pan (fun v => v < 256 ^ N.of_nat n) (read_int p bo n).
Proof.
  apply stab_of; [|apply read_int_ext]. intros bs Hok.
  destruct (read_int p bo n bs) as [[v r]| |] eqn:E; auto.
  - apply read_int_sound in E; auto. destruct E as [H1 [pre [H2 _]]]. split; [assumption|now exists pre].
  - unfold read_int, read_bytes in E. destruct (take_opt _ bs) as [[h t]|]; discriminate.
Qed.

Lemma wvar_rt tb v rest : v < 2 ^ tb -> wvar_dec tb (wvar_enc v ++ rest) = Ok (v, rest).
Proof.
  intros Hv. unfold wvar_enc, wvar_dec. change WDATA_MASK with 63. destruct (v <? 63) eqn:E.
  - cbn [app read_byte bind]. rewrite wtag_kind_new, wtag_data_new by lia. reflexivity.
  - cbn [app read_byte bind]. rewrite wtag_kind_new by lia. cbn [wkind_eqb wkind_byte N.eqb Pos.eqb].
    rewrite (wtag_data_full Continuation). now apply cont_roundtrip.
Qed.

Lemma wvar_stab {pan : Prop} tb : 8 <= tb -> stab pan (fun v => v < 2 ^ tb) (wvar_dec tb).
Proof.
  intros Ht. apply (stab_bind (fun b => b < 256)); [apply stab_read_byte|]. intros b Hb. cbn beta iota.
  destruct (wkind_eqb _ _); [|apply stab_err].
  destruct (wtag_data b) as [n|] eqn:E; [|now apply stab_cont].
  apply stab_ret. apply wtag_data_lt in E.
  assert (2 ^ 8 <= 2 ^ tb) by (apply N.pow_le_mono_r; lia). change (2 ^ 8) with 256 in *. lia.
Qed.

Lemma bits_ge8 w : 8 <= bits w.
Proof. destruct w; cbn; lia. Qed.

Lemma nbytes_lt w : N.of_nat (nbytes w) < 63.
Proof. destruct w; cbn; lia. Qed.

Lemma wunsigned_rt p o w v rest : v < 2 ^ bits w ->
  wunsigned_dec p o w (wunsigned_enc p o w v ++ rest) = Ok (v, rest).
Proof.
  intros Hv. unfold wunsigned_enc, wunsigned_dec. destruct (integer_value o).
  - now apply wvar_rt.
  - cbn [app read_byte bind]. rewrite N.eqb_refl. apply read_write_int. now rewrite <- pow_bits.
Qed.

Lemma wunsigned_stab {pan : Prop} p o w : stab pan (fun v => v < 2 ^ bits w) (wunsigned_dec p o w).
Proof.
  unfold wunsigned_dec. destruct (integer_value o).
  - apply wvar_stab, bits_ge8.
  - apply (stab_bind (fun b => b < 256)); [apply stab_read_byte|]. intros b Hb. cbn beta iota.
    destruct (_ =? _); [|apply stab_err]. rewrite pow_bits. apply stab_read_int.
Qed.

Lemma wvar_bytes v : bytes_ok (wvar_enc v) = true.
Proof.
  unfold wvar_enc. change WDATA_MASK with 63. destruct (v <? 63) eqn:E.
  - rewrite bytes_ok_cons. unfold byte_ok. pose proof (wtag_byte Continuation v ltac:(lia)) as Hb.
    rewrite (proj2 (N.ltb_lt _ _) Hb). reflexivity.
  - rewrite bytes_ok_cons, cont_encode_bytes_ok. reflexivity.
Qed.

Lemma wunsigned_bytes p o w v : bytes_ok (wunsigned_enc p o w v) = true.
Proof.
  unfold wunsigned_enc. destruct (integer_value o); [apply wvar_bytes|].
  rewrite bytes_ok_cons, write_int_eq, fixed_bytes_ok. unfold byte_ok.
  pose proof (nbytes_lt w) as Hn. pose proof (wtag_byte Prefix (N.of_nat (nbytes w)) ltac:(lia)) as Hb.
  rewrite (proj2 (N.ltb_lt _ _) Hb). reflexivity.
Qed.

Lemma length_rt p o v b rest : v < 2 ^ usize_bits p -> encode_length p o v = Ok b ->
  decode_length p o (b ++ rest) = Ok (v, rest).
Proof.
  intros Hv. unfold encode_length, decode_length.
  assert (Hw : forall w, (if 2 ^ width_disc w <=? WDATA_MASK then
         if v <? 2 ^ bits (width_int w) then
           Ok (wtag Prefix (2 ^ width_disc w) :: write_int p (byteorder_value o) (nbytes (width_int w)) v)
         else Err else Panic) = Ok b ->
       (let* (b0, r) := read_byte (b ++ rest) in
        if 2 ^ width_disc w <=? WDATA_MASK then
          if b0 =? wtag Prefix (2 ^ width_disc w) then
            let* (v', r') := read_int p (byteorder_value o) (nbytes (width_int w)) r in
            if v' <? 2 ^ usize_bits p then Ok (v', r') else Err
          else Err
        else Panic) = Ok (v, rest)).
  { intros w. destruct (_ <=? _); [|discriminate]. destruct (v <? 2 ^ bits (width_int w)) eqn:E; [|discriminate].
    intros H; inversion H; subst. cbn [app read_byte bind]. rewrite N.eqb_refl.
    rewrite read_write_int by (rewrite <- pow_bits; lia). cbn [bind].
    rewrite (proj2 (N.ltb_lt _ _) Hv). reflexivity. }
  destruct (length_value o); try apply Hw. intros H; inversion H; subst. now apply wvar_rt.
Qed.

Lemma length_stab {pan : Prop} p o : plain_width o = true ->
  stab pan (fun v => v < 2 ^ usize_bits p) (decode_length p o).
Proof.
  intros Hp. unfold plain_width in Hp. unfold decode_length. pose proof (usize_bits_ge p) as Hub.
  assert (Hw : forall w, 2 ^ width_disc w <=? WDATA_MASK = true -> stab pan (fun v => v < 2 ^ usize_bits p) (fun bs =>
       let* (b0, r) := read_byte bs in
        if 2 ^ width_disc w <=? WDATA_MASK then
          if b0 =? wtag Prefix (2 ^ width_disc w) then
            let* (v', r') := read_int p (byteorder_value o) (nbytes (width_int w)) r in
            if v' <? 2 ^ usize_bits p then Ok (v', r') else Err
          else Err
        else Panic)).
  { intros w H. rewrite H. apply (stab_bind (fun b => b < 256)); [apply stab_read_byte|]. intros b Hb. cbn beta iota.
    destruct (_ =? _); [|apply stab_err].
    apply (stab_bind (fun v => v < 256 ^ N.of_nat (nbytes (width_int w)))); [apply stab_read_int|].
    intros v Hv. cbn beta iota. destruct (v <? _) eqn:E; [|apply stab_err]. apply stab_ret. lia. }
  destruct (length_value o); try discriminate; try (apply Hw; reflexivity). apply wvar_stab. lia.
Qed.

Lemma length_total p o v : lengths_fit p o -> plain_width o = true -> v < 2 ^ usize_bits p ->
  exists b, encode_length p o v = Ok b /\ bytes_ok b = true.
Proof.
  intros Hf Hp Hv. unfold plain_width in Hp. unfold encode_length.
  assert (Hw : forall w, usize_bits p <= bits (width_int w) -> 2 ^ width_disc w <=? 32 = true ->
     exists b, (if 2 ^ width_disc w <=? WDATA_MASK then
         if v <? 2 ^ bits (width_int w) then
           Ok (wtag Prefix (2 ^ width_disc w) :: write_int p (byteorder_value o) (nbytes (width_int w)) v)
         else Err else Panic) = Ok b /\ bytes_ok b = true).
  { intros w Hb H. change WDATA_MASK with 63. rewrite (proj2 (N.leb_le _ _)) by lia.
    assert (Hlt : v < 2 ^ bits (width_int w)).
    { eapply N.lt_le_trans; [eassumption|]. apply N.pow_le_mono_r; lia. }
    rewrite (proj2 (N.ltb_lt _ _) Hlt). eexists; split; [reflexivity|].
    rewrite bytes_ok_cons, write_int_eq, fixed_bytes_ok. unfold byte_ok.
    pose proof (wtag_byte Prefix (2 ^ width_disc w) ltac:(lia)) as Hb'.
    rewrite (proj2 (N.ltb_lt _ _) Hb'). reflexivity. }
  destruct Hf as [Hf|Hf].
  - rewrite Hf. eexists; split; [reflexivity|]. apply wvar_bytes.
  - destruct (length_value o); try discriminate; try (apply Hw; [assumption|reflexivity]).
    eexists; split; [reflexivity|]. apply wvar_bytes.
Qed.

(** ** Leaves *)

Lemma char_lt c : char_valid c = true -> c < 2 ^ 32.
Proof. unfold char_valid. change (2 ^ 32) with 4294967296. lia. Qed.

Ltac vcase v Hv := destruct v; cbn [has_type] in Hv; try discriminate Hv.

Lemma wskip_gskip p o n bs : wskip_n p o n bs = gskip (fun n => wskip_step p o (n - 1)) n bs.
Proof.
  unfold wskip_n, gskip. generalize (length bs) as f. intros f. revert n bs.
  induction f as [|f IH]; intros n bs; cbn [wskip_loop gloop]; destruct (n =? 0); try reflexivity.
  destruct (wskip_step p o (n - 1) bs) as [[m r]| |]; cbn [bind]; try reflexivity. apply IH.
Qed.

Lemma wstep_strict p o n bs m r : wskip_step p o n bs = Ok (m, r) -> (length r < length bs)%nat.
Proof.
  unfold wskip_step. intros H. inv_bind H. destruct a as [b q]. apply read_byte_strict in H0.
  assert (Hl : forall v r', match wtag_data b with Some n => Ok (n, q) | None => decode_usize p o q end = Ok (v, r') ->
            (length r' <= length q)%nat).
  { intros v r'. destruct (wtag_data b); [intros E; inversion E; subst; lia|]. apply shrinks_usize. }
  destruct (wtag_kind b).
  - discriminate.
  - inv_bind H. destruct a as [k r1]. inv_bind H. destruct a as [h r2]. inversion H; subst.
    apply Hl in H1. apply shrinks_read_bytes in H2. lia.
  - inv_bind H. destruct a as [k r1]. destruct (_ <? _); [|discriminate]. inversion H; subst. apply Hl in H1. lia.
  - destruct (wtag_data b); [inversion H; subst; lia|]. inv_bind H. destruct a as [k r1]. inversion H; subst.
    apply shrinks_cont in H1. lia.
Qed.

Lemma wskip_0 p o bs : wskip_n p o 0 bs = Ok (tt, bs).
Proof. rewrite wskip_gskip. apply gskip_0. Qed.

Lemma wskip_unfold p o k bs : wskip_n p o (k + 1) bs =
  let* (m, r) := wskip_step p o k bs in wskip_n p o m r.
Proof.
  rewrite wskip_gskip, gskip_step; [| | |lia].
  - replace (k + 1 - 1) with k by lia. destruct (wskip_step p o k bs) as [[m r]| |]; cbn [bind]; try reflexivity.
    now rewrite wskip_gskip.
  - intros n b m r. apply wstep_strict.
  - reflexivity.
Qed.

Lemma wskip_stab p o n : stab True (fun _ => True) (wskip_n p o n).
Proof.
  assert (H : stab True (fun _ => True) (gskip (fun n => wskip_step p o (n - 1)) n)).
  { apply gskip_stab.
    - intros k b m r. apply wstep_strict.
    - reflexivity.
    - intros k _. unfold wskip_step.
      apply (stab_bind (fun b => b < 256)); [apply stab_read_byte|]. intros b Hb. cbn beta iota.
      assert (Hl : stab True (fun n => n < 2 ^ usize_bits p)
        (fun r => match wtag_data b with Some n => Ok (n, r) | None => decode_usize p o r end)).
      { destruct (wtag_data b) as [v|] eqn:E; [|apply stab_usize]. apply stab_ret.
        apply wtag_data_lt in E. pose proof (usize_bits_ge p).
        assert (2 ^ 16 <= 2 ^ usize_bits p) by (apply N.pow_le_mono_r; lia). change (2 ^ 16) with 65536 in *. lia. }
      destruct (wtag_kind b).
      + apply stab_err.
      + eapply stab_bind; [exact Hl|]. intros v _. cbn beta iota.
        eapply stab_bind; [apply stab_read_bytes|]. intros h _. now apply stab_ret.
      + eapply stab_bind; [exact Hl|]. intros v _. cbn beta iota.
        destruct (_ <? _); [now apply stab_ret|now apply stab_panic].
      + destruct (wtag_data b); [now apply stab_ret|].
        eapply stab_bind; [apply (stab_cont 128); lia|]. intros h _. now apply stab_ret. }
  intros bs ext Hok. rewrite !wskip_gskip. now apply H.
Qed.

Lemma wskip_seq p o k n l rest : k + n < 2 ^ usize_bits p -> wlen_enc p o Sequence n = Ok l ->
  wskip_n p o (k + 1) (l ++ rest) = wskip_n p o (k + n) rest.
Proof.
  intros Hn He. rewrite wskip_unfold. unfold wskip_step, wlen_enc in *. change WDATA_MASK with 63 in *.
  destruct (n <? 63) eqn:E.
  - inversion He; subst l. cbn [app read_byte bind]. rewrite wtag_kind_new, wtag_data_new by lia. cbn [bind].
    rewrite (proj2 (N.ltb_lt _ _) Hn). reflexivity.
  - inv_bind He. inversion He; subst l. cbn [app read_byte bind].
    rewrite wtag_kind_new by lia. rewrite (wtag_data_full Sequence).
    rewrite (usize_roundtrip p o n a) by (assumption || lia). cbn [bind].
    rewrite (proj2 (N.ltb_lt _ _) Hn). reflexivity.
Qed.

Lemma wleaf_rt p o t : leaf t = true -> wf p t ->
  rt false (has_type p t) (wleaf_enc p o t) (wleaf_dec p o t).
Proof.
  intros Hl Hw v bs rest Hv _ He. pose proof (usize_bits_ge p) as Hub.
  destruct t; try discriminate Hl; cbn [wleaf_enc wleaf_dec] in *.
  - vcase v Hv. inversion He; subst. unfold wskip.
    assert (E : wskip_n p o 1 ([wtag Sequence 0] ++ rest) = Ok (tt, rest)).
    { etransitivity; [apply (wskip_seq p o 0 0); [lia|reflexivity]|]. apply wskip_0. }
    rewrite E. reflexivity.
  - vcase v Hv. inversion He; subst. destruct b; reflexivity.
  - vcase v Hv. inversion He; subst. rewrite wunsigned_rt by (now apply char_lt). cbn [bind]. now rewrite Hv.
  - vcase v Hv. inversion He; subst. rewrite wunsigned_rt by lia. reflexivity.
  - assert (Hz : forall w, match v with VZ z => Ok (wsigned_enc p o w z) | _ => Err end = Ok bs ->
       has_type p (TI w) v = true -> (let* (z, r) := wsigned_dec p o w (bs ++ rest) in Ok (VZ z, r)) = Ok (v, rest)).
    { clear. intros w He Hv. vcase v Hv. inversion He; subst. apply in_sb_s in Hv. unfold wsigned_enc, wsigned_dec.
      pose proof (bits_ge8 w). rewrite wunsigned_rt by (apply zig_encode_lt; [lia|assumption]). cbn [bind].
      rewrite zig_roundtrip by (lia || assumption). reflexivity. }
    destruct w; try (apply Hz; assumption). vcase v Hv. inversion He; subst. apply in_sb_s in Hv.
    rewrite wunsigned_rt by (apply (to_u_lt 8); lia). cbn [bind]. rewrite to_s_to_u; [reflexivity|lia|exact Hv].
  - vcase v Hv. rewrite (length_rt p o n) with (b := bs) by (assumption || lia). reflexivity.
  - vcase v Hv. apply in_sb_s in Hv.
    rewrite (length_rt p o (to_u (usize_bits p) z)) with (b := bs) by (assumption || (apply to_u_lt; lia)).
    cbn [bind]. rewrite to_s_to_u by (assumption || lia). reflexivity.
  - vcase v Hv. inversion He; subst. rewrite wunsigned_rt by (cbn; lia). reflexivity.
  - vcase v Hv. inversion He; subst. rewrite wunsigned_rt by (cbn; lia). reflexivity.
  - vcase v Hv. apply andb_true_iff in Hv. destruct Hv as [Hv Hz]. inversion He; subst.
    rewrite wunsigned_rt by lia. cbn [bind]. destruct (n =? 0); [discriminate|reflexivity].
  - vcase v Hv. rewrite !andb_true_iff in Hv. destruct Hv as [[Hb Hu] Hlen]. apply len_ok_lt in Hlen.
    inv_bind He. inversion He; subst. rewrite <- app_assoc, (wlen_rt p o Prefix (lenN bs0) a) by assumption. cbn [bind].
    unfold read_bytes. rewrite take_opt_app. cbn [bind]. now rewrite Hu.
  - vcase v Hv. rewrite !andb_true_iff in Hv. destruct Hv as [Hb Hlen]. apply len_ok_lt in Hlen.
    inv_bind He. inversion He; subst. rewrite <- app_assoc, (wlen_rt p o Prefix (lenN bs0) a) by assumption. cbn [bind].
    unfold read_bytes. rewrite take_opt_app. reflexivity.
  - vcase v Hv. rewrite !andb_true_iff in Hv. destruct Hv as [Hb Hlen]. cbn [wf] in Hw. apply N.eqb_eq in Hlen. subst n.
    inv_bind He. inversion He; subst. rewrite <- app_assoc, (wlen_rt p o Prefix (lenN bs0) a) by assumption. cbn [bind].
    rewrite N.eqb_refl. unfold read_bytes. rewrite take_opt_app. reflexivity.
Qed.

Lemma wire_rt_laws p o : rt_laws (wire p o) p.
Proof.
  constructor; cbn [wire f_leaf_enc f_leaf_dec f_seq_enc f_seq_dec f_map_enc f_map_dec f_none f_some f_opt_dec
    f_var f_var_dec f_pack_enc f_pack_dec f_skip f_skip_rest].
  - intros t Hl Hw. now apply wleaf_rt.
  - intros n b rest Hn He. now apply wlen_rt.
  - intros n b rest Hn He. now apply wmap_rt.
  - intros n b rest Hn He. now apply wlen_rt.
  - reflexivity.
  - reflexivity.
  - reflexivity.
  - reflexivity.
Qed.

(** ** Totality *)

Lemma wire_tot_laws p o : lengths_fit p o -> plain_width o = true -> tot_laws (wire p o) p.
Proof.
  intros Hf Hp. pose proof (usize_bits_ge p) as Hub.
  constructor; cbn [wire f_leaf_enc f_leaf_dec f_seq_enc f_seq_dec f_map_enc f_map_dec f_none f_some f_opt_dec
    f_var f_var_dec f_pack_enc f_pack_dec f_skip f_skip_rest]; try reflexivity.
  - intros t Hl Hw v Hv. destruct t; try discriminate Hl; cbn [wleaf_enc].
    + vcase v Hv. now eexists.
    + vcase v Hv. destruct b; now eexists.
    + vcase v Hv. eexists; split; [reflexivity|apply wunsigned_bytes].
    + vcase v Hv. eexists; split; [reflexivity|apply wunsigned_bytes].
    + destruct w; vcase v Hv; (eexists; split; [reflexivity|apply wunsigned_bytes]).
    + vcase v Hv. apply length_total; auto. lia.
    + vcase v Hv. apply length_total; auto. apply to_u_lt; lia.
    + vcase v Hv. eexists; split; [reflexivity|apply wunsigned_bytes].
    + vcase v Hv. eexists; split; [reflexivity|apply wunsigned_bytes].
    + vcase v Hv. eexists; split; [reflexivity|apply wunsigned_bytes].
    + vcase v Hv. rewrite !andb_true_iff in Hv. destruct Hv as [[Hb _] Hlen]. apply len_ok_lt in Hlen.
      destruct (wlen_total p o Prefix _ Hf Hlen) as [l [El Ol]]. rewrite El. cbn [bind]. eexists; split; [reflexivity|].
      now rewrite bytes_ok_app, Ol, Hb.
    + vcase v Hv. rewrite !andb_true_iff in Hv. destruct Hv as [Hb Hlen]. apply len_ok_lt in Hlen.
      destruct (wlen_total p o Prefix _ Hf Hlen) as [l [El Ol]]. rewrite El. cbn [bind]. eexists; split; [reflexivity|].
      now rewrite bytes_ok_app, Ol, Hb.
    + vcase v Hv. rewrite !andb_true_iff in Hv. destruct Hv as [Hb Hlen]. cbn [wf] in Hw. apply N.eqb_eq in Hlen. subst n.
      destruct (wlen_total p o Prefix _ Hf Hw) as [l [El Ol]]. rewrite El. cbn [bind]. eexists; split; [reflexivity|].
      now rewrite bytes_ok_app, Ol, Hb.
  - intros n Hn. now apply wlen_total.
  - intros n Hn. unfold wmap_enc. rewrite (proj2 (N.ltb_lt _ _) Hn). now apply wlen_total.
  - intros n Hn. now apply wlen_total.
Qed.

(** ** Skipping *)

Lemma wskip_prefix p o k n l body rest : n < 2 ^ usize_bits p -> wlen_enc p o Prefix n = Ok l ->
  lenN body = n -> wskip_n p o (k + 1) (l ++ body ++ rest) = wskip_n p o k rest.
Proof.
  intros Hn He Hb. rewrite wskip_unfold. unfold wskip_step, wlen_enc in *. change WDATA_MASK with 63 in *.
  destruct (n <? 63) eqn:E.
  - inversion He; subst l. cbn [app read_byte bind]. rewrite wtag_kind_new, wtag_data_new by lia. cbn [bind].
    unfold read_bytes. rewrite <- Hb, take_opt_app. reflexivity.
  - inv_bind He. inversion He; subst l. cbn [app read_byte bind].
    rewrite wtag_kind_new by lia. rewrite (wtag_data_full Prefix).
    rewrite (usize_roundtrip p o n a) by assumption. cbn [bind].
    unfold read_bytes. rewrite <- Hb, take_opt_app. reflexivity.
Qed.

Lemma wskip_var p o k v rest : v < 2 ^ 128 ->
  wskip_n p o (k + 1) (wvar_enc v ++ rest) = wskip_n p o k rest.
Proof.
  intros Hv. rewrite wskip_unfold. unfold wskip_step, wvar_enc. change WDATA_MASK with 63. destruct (v <? 63) eqn:E.
  - cbn [app read_byte bind]. rewrite wtag_kind_new, wtag_data_new by lia. reflexivity.
  - cbn [app read_byte bind]. rewrite wtag_kind_new by lia. rewrite (wtag_data_full Continuation).
    rewrite cont_roundtrip by assumption. reflexivity.
Qed.

Lemma bits_le w : 2 ^ bits w <= 2 ^ 128.
Proof. apply N.pow_le_mono_r; [lia|]. destruct w; cbn; lia. Qed.

Lemma wskip_unsigned p o w k v rest : v < 2 ^ bits w ->
  wskip_n p o (k + 1) (wunsigned_enc p o w v ++ rest) = wskip_n p o k rest.
Proof.
  intros Hv. unfold wunsigned_enc. destruct (integer_value o).
  - apply wskip_var. pose proof (bits_le w). lia.
  - rewrite wskip_unfold. unfold wskip_step. cbn [app read_byte bind]. pose proof (nbytes_lt w).
    rewrite wtag_kind_new, wtag_data_new by lia. cbn [bind].
    unfold read_bytes. rewrite write_int_eq. rewrite <- (fixed_bytes_len (byteorder_value o) (nbytes w) v) at 1.
    rewrite take_opt_app. reflexivity.
Qed.

Lemma wire_skip_laws p o : skip_laws (wire p o) p (wok o) (wskip_n p o).
Proof.
  pose proof (usize_bits_ge p) as Hub.
  assert (Hus : 2 ^ usize_bits p <= 2 ^ 128).
  { apply N.pow_le_mono_r; [lia|]. unfold usize_bits, ptr_bits. destruct (ptr p); lia. }
  constructor; cbn [wire f_leaf_enc f_leaf_dec f_seq_enc f_seq_dec f_map_enc f_map_dec f_none f_some f_opt_dec
    f_var f_var_dec f_pack_enc f_pack_dec f_skip f_skip_rest].
  - reflexivity.
  - apply wskip_0.
  - intros t v b k rest Hl Hok Hw Hv He Hk.
    assert (Hu : forall w n, n < 2 ^ bits w -> Ok (wunsigned_enc p o w n) = Ok b ->
              b <> [] /\ wskip_n p o (k + 1) (b ++ rest) = wskip_n p o k rest).
    { intros w n Hn E. inversion E; subst. split.
      - unfold wunsigned_enc, wvar_enc. destruct (integer_value o); [destruct (_ <? _)|]; discriminate.
      - now apply wskip_unsigned. }
    assert (Hlen : forall n, n < 2 ^ usize_bits p -> length_value o = WVariable -> encode_length p o n = Ok b ->
              b <> [] /\ wskip_n p o (k + 1) (b ++ rest) = wskip_n p o k rest).
    { intros n Hn El E. unfold encode_length in E. rewrite El in E. inversion E; subst. split.
      - unfold wvar_enc. destruct (_ <? _); discriminate.
      - apply wskip_var. lia. }
    assert (Hpre : forall bs, lenN bs < 2 ^ usize_bits p ->
              (let* l := wlen_enc p o Prefix (lenN bs) in Ok (l ++ bs)) = Ok b ->
              b <> [] /\ wskip_n p o (k + 1) (b ++ rest) = wskip_n p o k rest).
    { intros bs Hn E. inv_bind E. inversion E; subst. split.
      - intros H. apply app_eq_nil in H. now apply (wlen_ne _ _ _ _ _ E0).
      - rewrite <- app_assoc. now apply (wskip_prefix p o k (lenN bs)). }
    destruct t; try discriminate Hl; cbn [wleaf_enc wok] in *.
    + vcase v Hv. inversion He; subst. split; [discriminate|].
      rewrite (wskip_seq p o k 0) with (l := [wtag Sequence 0]); [now rewrite N.add_0_r|lia|reflexivity].
    + vcase v Hv. inversion He; subst. split; [discriminate|].
      rewrite (wskip_unfold p o k). destruct b0; reflexivity.
    + vcase v Hv. apply (Hu W32 n); [now apply char_lt|assumption].
    + vcase v Hv. apply (Hu w n); [lia|assumption].
    + destruct w; vcase v Hv; apply in_sb_s in Hv.
      * apply (Hu W8 _ ltac:(apply to_u_lt; cbn; lia) He).
      * apply (Hu W16 _ ltac:(apply zig_encode_lt; [cbn; lia|exact Hv]) He).
      * apply (Hu W32 _ ltac:(apply zig_encode_lt; [cbn; lia|exact Hv]) He).
      * apply (Hu W64 _ ltac:(apply zig_encode_lt; [cbn; lia|exact Hv]) He).
      * apply (Hu W128 _ ltac:(apply zig_encode_lt; [cbn; lia|exact Hv]) He).
    + vcase v Hv. apply (Hlen n); [lia| |assumption]. now destruct (length_value o).
    + vcase v Hv. apply (Hlen (to_u (usize_bits p) z)); [apply to_u_lt; lia| |assumption]. now destruct (length_value o).
    + vcase v Hv. apply (Hu W32 n); [cbn; lia|assumption].
    + vcase v Hv. apply (Hu W64 n); [cbn; lia|assumption].
    + vcase v Hv. apply (Hu w n); [lia|assumption].
    + vcase v Hv. rewrite !andb_true_iff in Hv. destruct Hv as [[_ _] Hn]. apply len_ok_lt in Hn. now apply (Hpre bs).
    + vcase v Hv. rewrite !andb_true_iff in Hv. destruct Hv as [_ Hn]. apply len_ok_lt in Hn. now apply (Hpre bs).
    + vcase v Hv. rewrite !andb_true_iff in Hv. destruct Hv as [_ Hn]. cbn [wf] in Hw. apply N.eqb_eq in Hn. subst n. now apply (Hpre bs).
  - intros n b k rest He Hk. split; [now apply wlen_ne in He|]. apply wskip_seq; [lia|assumption].
  - intros n b He. now apply wlen_ne in He.
  - intros n b k rest He Hk. unfold wmap_enc in He. destruct (_ <? _); [|discriminate].
    split; [now apply wlen_ne in He|]. apply wskip_seq; [lia|assumption].
  - intros n b He. unfold wmap_enc in He. destruct (_ <? _); [|discriminate]. now apply wlen_ne in He.
  - intros n b body k rest He Hb Hn Hk. split; [now apply wlen_ne in He|]. now apply (wskip_prefix p o k n).
  - intros k rest Hk. split; [discriminate|].
    rewrite (wskip_seq p o k 0) with (l := [wtag Sequence 0]); [now rewrite N.add_0_r|lia|reflexivity].
  - intros k rest Hk. split; [discriminate|]. apply (wskip_seq p o k 1); [lia|reflexivity].
  - intros k rest Hk. split; [discriminate|]. apply (wskip_seq p o k 2); [lia|reflexivity].
Qed.

(** ** Arbitrary input *)

Lemma wire_stab_laws p o : plain_width o = true -> stab_laws (wire p o) p.
Proof.
  intros Hp. pose proof (usize_bits_ge p) as Hub.
  assert (Hpre : stab False (fun h => bytes_ok h = true /\ lenN h < 2 ^ usize_bits p)
     (fun bs => let* (n, r) := wlen_dec p o Prefix bs in read_bytes n r)).
  { eapply stab_bind; [apply wlen_stab|]. intros n Hn; cbn beta in Hn. cbn beta iota.
    eapply stab_weaken; [|apply stab_read_bytes]. intros h [H1 H2]. split; [assumption|rewrite H2; exact Hn]. }
  constructor; cbn [wire f_leaf_enc f_leaf_dec f_seq_enc f_seq_dec f_map_enc f_map_dec f_none f_some f_opt_dec
    f_var f_var_dec f_pack_enc f_pack_dec f_skip f_skip_rest].
  - intros t Hl Hne Hw. destruct t; try discriminate Hl; cbn [wleaf_dec]; try congruence; cbn [wf] in Hw.
    + apply (stab_bind (fun b => b < 256)); [apply stab_read_byte|]. intros b Hb. cbn beta iota.
      destruct (b =? _); [now apply stab_ret|]. destruct (b =? _); [now apply stab_ret|apply stab_err].
    + eapply stab_bind; [apply wunsigned_stab|]. intros n Hn; cbn beta in Hn. cbn beta iota.
      destruct (char_valid n) eqn:E; [now apply stab_ret|apply stab_err].
    + eapply stab_bind; [apply wunsigned_stab|]. intros n Hn; cbn beta in Hn. apply stab_ret. cbn [has_type]. lia.
    + assert (Hz : forall w, stab False (fun v => has_type p (TI w) v = true)
          (fun bs => let* (z, r) := wsigned_dec p o w bs in Ok (VZ z, r))).
      { intros w'. apply (stab_bind (fun z => in_s (bits w') z)).
        - apply (stab_bind (fun n => n < 2 ^ bits w')); [apply wunsigned_stab|]. intros n Hn; cbn beta in Hn. apply stab_ret.
          apply zig_decode_range; [destruct w'; cbn; lia|assumption].
        - intros z Hz. apply stab_ret. cbn [has_type]. now apply in_sb_s. }
      destruct w; try apply Hz.
      eapply stab_bind; [apply wunsigned_stab|]. intros n Hn; cbn beta in Hn. apply stab_ret. cbn [has_type].
      apply in_sb_s. apply to_s_range; [cbn; lia|assumption].
    + eapply stab_bind; [now apply length_stab|]. intros n Hn; cbn beta in Hn. apply stab_ret. cbn [has_type]. lia.
    + eapply stab_bind; [now apply length_stab|]. intros n Hn; cbn beta in Hn. apply stab_ret. cbn [has_type].
      apply in_sb_s. apply to_s_range; [lia|assumption].
    + eapply stab_bind; [apply wunsigned_stab|]. intros n Hn; cbn beta in Hn. apply stab_ret. cbn [has_type]. cbn in Hn. lia.
    + eapply stab_bind; [apply wunsigned_stab|]. intros n Hn; cbn beta in Hn. apply stab_ret. cbn [has_type]. cbn in Hn. lia.
    + eapply stab_bind; [apply wunsigned_stab|]. intros n Hn; cbn beta in Hn. cbn beta iota.
      destruct (n =? 0) eqn:E; [apply stab_err|]. apply stab_ret. cbn [has_type]. rewrite E. lia.
    + eapply stab_bind; [exact Hpre|]. intros h [H1 H2]. cbn beta iota.
      destruct (utf8_valid h) eqn:E; [|apply stab_err]. apply stab_ret. cbn [has_type]. rewrite H1, E. unfold len_ok. lia.
    + eapply stab_bind; [exact Hpre|]. intros h [H1 H2]. apply stab_ret. cbn [has_type]. rewrite H1. unfold len_ok. lia.
    + eapply stab_bind; [apply wlen_stab|]. intros m Hm; cbn beta in Hm. cbn beta iota.
      destruct (m =? n) eqn:E; [|apply stab_err].
      eapply stab_bind; [apply stab_read_bytes|]. intros h [H1 H2]. apply stab_ret. cbn [has_type]. rewrite H1. lia.
  - eapply stab_bind; [apply (wskip_stab p o 1)|]. intros u _. now apply stab_ret.
  - apply wlen_stab.
  - apply (stab_bind (fun n => n < 2 ^ usize_bits p)); [apply wlen_stab|]. intros n Hn; cbn beta in Hn. apply stab_ret.
    apply N.le_lt_trans with n; [|assumption]. apply N.div_le_upper_bound; lia.
  - eapply stab_weaken; [|apply wlen_stab]. auto.
  - apply (stab_bind (fun b => b < 256)); [apply stab_read_byte|]. intros b Hb. cbn beta iota.
    destruct (b =? _); [now apply stab_ret|]. destruct (b =? _); [now apply stab_ret|apply stab_err].
  - apply (stab_bind (fun b => b < 256)); [apply stab_read_byte|]. intros b Hb. cbn beta iota.
    destruct (b =? _); [now apply stab_ret|apply stab_err].
  - apply (wskip_stab p o 1).
  - intros n. unfold wskip_rest.
    apply (stab_iter_inv (fun _ : unit => True) (fun s => wskip p o (snd s))); [|exact I].
    intros s _. apply (wskip_stab p o 1).
Qed.
