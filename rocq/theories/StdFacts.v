(** Facts about types of the standard library. *)
From Verif Require Import Base Options Int Utf8 Types Storage StorageSpec Fmt FmtSpec Wire Desc Std StdSpec BaseFacts TypesFacts FmtFacts WireFacts DescFacts.
From Coq Require Import Lia.
Local Open Scope N_scope.

Lemma usize_16 p : 16 <= usize_bits p.
Proof. unfold usize_bits. destruct (ptr p); cbn; lia. Qed.

Lemma small_len p n : n < 2 ^ 16 -> n <? 2 ^ usize_bits p = true.
Proof.
  intros H. apply N.ltb_lt. eapply N.lt_le_trans; [exact H|]. apply N.pow_le_mono_r; [lia|apply usize_16].
Qed.

Lemma octet_type p n v : octet n v -> has_type p (TArr n) v = true.
Proof. intros (b & -> & Hb & Hn). cbn [has_type]. rewrite Hb. apply N.eqb_eq in Hn. now rewrite Hn. Qed.

Lemma num_type p k w v : num k v -> k = bits w -> has_type p (TU w) v = true.
Proof. intros (n & -> & H) ->. cbn [has_type]. now apply N.ltb_lt. Qed.

Lemma socket4_type p v : socket4_value v -> has_type p socket4 v = true.
Proof.
  intros (a & b & -> & Ha & Hb). unfold socket4, ip4. cbn [has_type map snd all2].
  change (has_type p (TArr 4) a && (has_type p (TU W16) b && true) = true).
  rewrite (octet_type p 4 a Ha), (num_type p 16 W16 b Hb eq_refl). reflexivity.
Qed.

Lemma socket6_type p v : socket6_value v -> has_type p socket6 v = true.
Proof.
  intros (a & b & c & d & -> & Ha & Hb & Hc & Hd). 
  change (has_type p (TArr 16) a && (has_type p (TU W16) b && (has_type p (TU W32) c && (has_type p (TU W32) d && true))) = true).
  rewrite (octet_type p 16 a Ha), (num_type p 16 W16 b Hb eq_refl), (num_type p 32 W32 c Hc eq_refl), (num_type p 32 W32 d Hd eq_refl). reflexivity.
Qed.

Lemma either_type p t u v : (exists x, v = VVar 0 x /\ has_type p t x = true \/ v = VVar 1 x /\ has_type p u x = true) ->
  has_type p (either t u) v = true.
Proof. intros (x & [[-> H]|[-> H]]); exact H. Qed.

Lemma wide_out_ok ws : Forall (num 16) ws -> bytes_ok (wide_out ws) = true /\ lenN (wide_out ws) = 2 * lenN ws /\ wide_in (wide_out ws) = ws.
Proof.
  intros H. induction H as [|w ws (n & -> & Hn) _ (I1 & I2 & I3)]; [auto|]. change (2 ^ 16) with 65536 in Hn.
  cbn [wide_out wide_in bytes_ok forallb]. split; [|split].
  - unfold bytes_ok in I1. rewrite I1, !andb_true_r. unfold byte_ok. apply andb_true_iff. split; apply N.ltb_lt.
    + apply N.mod_lt. lia.
    + apply N.div_lt_upper_bound; lia.
  - rewrite !lenN_cons, I2. lia.
  - rewrite I3. do 2 f_equal. rewrite (N.div_mod n 256) at 3 by lia. lia.
Qed.

Lemma put_type p s v : std_value p s v -> has_type p (std_written s) (std_put s v) = true.
Proof.
  destruct s; cbn [std_value std_written std_put].
  - apply octet_type.
  - apply octet_type.
  - intros (x & [[-> H]|[-> H]]); apply either_type; exists x; [left|right]; (split; [reflexivity|apply octet_type, H]).
  - apply socket4_type.
  - apply socket6_type.
  - intros (x & [[-> H]|[-> H]]); apply either_type; exists x; [left|right]; (split; [reflexivity|]); [apply socket4_type, H|apply socket6_type, H].
  - intros (a & b & -> & Ha & Hb). cbn [has_type map all2]. rewrite Ha, Hb. reflexivity.
  - intros (a & -> & Ha). cbn [has_type map all2]. rewrite Ha. reflexivity.
  - intros ->. reflexivity.
  - intros (x & H). replace (match v with VBytes _ => v | _ => v end) with v by (destruct v; reflexivity). apply either_type. exists x. exact H.
  - intros (b & -> & Hb & _ & Hl). cbn [has_type]. unfold len_ok. rewrite lenN_app. cbn [lenN]. 
    unfold bytes_ok in *. rewrite forallb_app, Hb. cbn. apply N.ltb_lt. change (lenN [0]) with 1. exact Hl.
  - intros (b & -> & Hb & Hl). apply either_type. exists (VBytes b). left. split; [reflexivity|]. cbn [has_type]. unfold len_ok. rewrite Hb. now apply N.ltb_lt.
  - intros (ws & -> & Hw & Hl). destruct (wide_out_ok ws Hw) as (H1 & H2 & _). apply either_type. exists (VBytes (wide_out ws)). right. split; [reflexivity|].
    cbn [has_type]. unfold len_ok. rewrite H1, H2. now apply N.ltb_lt.
Qed.

Lemma either_wf p t u : wf p t -> wf p u -> wf p (either t u).
Proof.
  intros Ht Hu. unfold either. cbn [wf map allP fold_right snd fst forallb has_type distinct existsb val_eqb].
  rewrite !small_len by reflexivity. repeat split; auto.
Qed.

Lemma std_written_wf p s : parts s (wf p) -> wf p (std_written s).
Proof.
  assert (A4 : wf p ip4) by (cbn; apply N.ltb_lt, small_len; reflexivity).
  assert (A6 : wf p ip6) by (cbn; apply N.ltb_lt, small_len; reflexivity).
  assert (S4 : wf p socket4).
  { cbn [socket4 wf map allP fold_right snd]. split; [split; [exact A4|auto]|]. split; [apply small_len; reflexivity|].
    intros ft d [<-|[<-|[]]]; discriminate. }
  assert (S6 : wf p socket6).
  { cbn [socket6 wf map allP fold_right snd]. split; [split; [exact A6|auto]|]. split; [apply small_len; reflexivity|].
    intros ft d [<-|[<-|[<-|[<-|[]]]]]; discriminate. }
  destruct s; cbn [parts std_written]; auto using either_wf.
  - intros H. cbn [wf map allP fold_right]. split; [auto|apply small_len; reflexivity].
  - intros H. cbn [wf map allP fold_right]. split; [auto|apply small_len; reflexivity].
  - intros _. cbn [wf map allP fold_right]. split; [auto|apply small_len; reflexivity].
  - intros [H1 H2]. now apply either_wf.
Qed.

Lemma std_written_packs p o s : (is_native_fixed p o = true -> native_order p o = true) -> parts s (packs_ok p o) -> packs_ok p o (std_written s).
Proof.
  intros N. unfold packs_ok. destruct s; cbn [parts std_written either socket4 socket6 ip4 ip6 packs forallb map snd pack_pos andb]; intros H;
    try (split; [reflexivity|]; intros E; try rewrite (N E); reflexivity).
  - destruct H as [H1 H2]. rewrite H1. split; [reflexivity|]. intros E. now rewrite (H2 E).
  - destruct H as [H1 H2]. rewrite H1. split; [reflexivity|]. intros E. now rewrite (H2 E).
  - destruct H as [[H1 H2] [H3 H4]]. rewrite H1, H3. split; [reflexivity|]. intros E. now rewrite (H2 E), (H4 E).
Qed.

Lemma get_put p s v : std_value p s v -> s <> SRangeFull -> s <> SOsUnix -> s <> SOsWindows -> std_get s (std_put s v) = Ok v.
Proof.
  destruct s; intros H H1 H2 H3; try congruence; try (destruct v; reflexivity).
  destruct H as (b & -> & Hb & Hn & Hl). cbn [std_put std_get]. unfold cstr_ok. rewrite rev_app_distr. cbn [rev app].
  replace (forallb (fun c => negb (c =? 0)) (rev b)) with true; [reflexivity|]. symmetry. apply forallb_forall. intros x Hx.
  apply in_rev in Hx. apply negb_true_iff, N.eqb_neq. intros ->. contradiction.
Qed.

(** What the other system wrote. *)
Lemma pick F p o bs x r : gdec F p o (either TBytes TBytes) bs = Ok (VVar 1 x, r) ->
  gdec F p o (TEnum true TUsize [(VN 1, TBytes)]) bs = Ok (VVar 0 x, r) /\
  gdec F p o (TEnum true TUsize [(VN 0, TVec (TU W8))]) bs = Err.
Proof.
  unfold either. cbn [gdec map fst snd nth_error find_name].
  destruct (f_var_dec F bs) as [[u r0]| |]; cbn [bind]; try discriminate.
  destruct (f_leaf_dec F TUsize r0) as [[k r1]| |]; cbn [bind]; try discriminate.
  destruct (val_eqb k (VN 0)) eqn:E0; cbn [option_map nth_error].
  { destruct (f_leaf_dec F TBytes r1) as [[]| |]; cbn [bind]; try discriminate. }
  destruct (val_eqb k (VN 1)) eqn:E1; cbn [option_map nth_error]; [|discriminate].
  destruct (f_leaf_dec F TBytes r1) as [[v r2]| |]; cbn [bind]; try discriminate. intros H. inversion H; subst. auto.
Qed.

Lemma pick_unix F p o bs x r : gdec F p o (either TBytes TBytes) bs = Ok (VVar 0 x, r) ->
  gdec F p o (TEnum true TUsize [(VN 1, TBytes)]) bs = Err.
Proof.
  unfold either. cbn [gdec map fst snd nth_error find_name].
  destruct (f_var_dec F bs) as [[u r0]| |]; cbn [bind]; try discriminate.
  destruct (f_leaf_dec F TUsize r0) as [[k r1]| |]; cbn [bind]; try discriminate.
  destruct (val_eqb k (VN 0)) eqn:E0; cbn [option_map nth_error].
  { apply val_eqb_eq in E0. subst k. reflexivity. }
  destruct (val_eqb k (VN 1)) eqn:E1; cbn [option_map nth_error]; [|discriminate].
  destruct (f_leaf_dec F TBytes r1) as [[v r2]| |]; cbn [bind]; try discriminate.
Qed.

Lemma small_0 p : 0 <? 2 ^ usize_bits p = true.
Proof. apply small_len. reflexivity. Qed.

Lemma unit_as_tuple_wire p o bs rest : wire_encode p o (TTup []) (VList []) = Ok bs ->
  wire_skip p o (bs ++ rest) = Ok (tt, rest).
Proof.
  unfold wire_encode. cbn. intros H. inversion H. subst bs. unfold wire_skip, wskip, wskip_n. cbn [app length wskip_loop].
  change (1 =? 0) with false. cbn iota. change (1 - 1) with 0.
  replace (wskip_step p o 0 (128 :: rest)) with (@Ok (N * bytes) (0, rest)); [destruct (length rest); reflexivity|].
  unfold wskip_step. cbn [read_byte bind]. change (wtag_data 128) with (Some 0). change (wtag_kind 128) with Sequence.
  cbn iota. cbn [bind]. change (0 + 0) with 0. rewrite small_0. reflexivity.
Qed.

Lemma unit_as_tuple_desc p o bs rest : descriptive_encode p o (TTup []) (VList []) = Ok bs ->
  descriptive_skip p o (bs ++ rest) = Ok (tt, rest).
Proof.
  unfold descriptive_encode. cbn. intros H. inversion H. subst bs. unfold descriptive_skip, dskip, dskip_n. cbn [app length dskip_loop].
  change (1 =? 0) with false. cbn iota.
  replace (dskip_step p o 1 (96 :: rest)) with (@Ok (N * bytes) (0, rest)); [destruct (length rest); reflexivity|].
  unfold dskip_step. cbn [read_byte bind]. change (dtag_kind 96) with DSequence. cbn iota.
  unfold dlen_of. change (dtag_data 96) with (Some 0). cbn iota. cbn [bind]. change (1 + 0) with 1. rewrite small_len by reflexivity. reflexivity.
Qed.

(** ** Strings of Unix systems *)

Definition unix_read := TEnum true TUsize [(VN 0, TVec (TU W8))].

(** Bytes are not a sequence. *)
Lemma bytes_not_seq_wire p o b l rest : f_leaf_enc (wire p o) TBytes (VBytes b) = Ok l ->
  f_seq_dec (wire p o) (l ++ rest) = Err.
Proof.
  cbn [wire f_leaf_enc wleaf_enc f_seq_dec]. unfold wlen_enc, wlen_dec.
  destruct (lenN b <? WDATA_MASK) eqn:E; cbn [bind].
  - intros H. inversion H. cbn [app read_byte bind]. apply N.ltb_lt in E. rewrite wtag_kind_new by (unfold WDATA_MASK in E; lia). reflexivity.
  - destruct (encode_usize p o (lenN b)); cbn [bind]; try discriminate. intros H. inversion H. cbn [app read_byte bind].
    rewrite wtag_kind_new by (unfold WDATA_MASK; lia). reflexivity.
Qed.

Lemma bytes_not_seq_desc p o b l rest : f_leaf_enc (descriptive p o) TBytes (VBytes b) = Ok l ->
  f_seq_dec (descriptive p o) (l ++ rest) = Err.
Proof.
  cbn [descriptive f_leaf_enc dleaf_enc f_seq_dec]. unfold dlen_enc, dlen_dec.
  destruct (lenN b <? DDATA_MASK) eqn:E; cbn [bind].
  - intros H. inversion H. cbn [app read_byte bind]. apply N.ltb_lt in E. rewrite dtag_kind_new by (unfold DDATA_MASK in E; lia). reflexivity.
  - destruct (encode_usize p o (lenN b)); cbn [bind]; try discriminate. intros H. inversion H. cbn [app read_byte bind].
    rewrite dtag_kind_new by (unfold DDATA_MASK; lia). reflexivity.
Qed.

Lemma unix_never F p o (L : rt_laws F p) :
  (forall b l rest, f_leaf_enc F TBytes (VBytes b) = Ok l -> f_seq_dec F (l ++ rest) = Err) ->
  forall v bs rest, std_value p SOsUnix v -> std_encode (genc F p o) SOsUnix v = Ok bs ->
  std_decode (gdec F p o) SOsUnix (bs ++ rest) = Err.
Proof.
  intros HB v bs rest (b & -> & _ & _). unfold std_encode, std_decode, std_written, std_put, std_reads, either.
  cbn [genc gdec map fst snd nth_error].
  destruct (f_leaf_enc F TUsize (VN 0)) as [l1| |] eqn:E1; cbn [bind]; try discriminate.
  destruct (f_leaf_enc F TBytes (VBytes b)) as [l2| |] eqn:E2; cbn [bind]; try discriminate.
  intros H. inversion H; subst bs. rewrite <- !app_assoc. rewrite (l_var F p L). cbn [bind].
  assert (R : f_leaf_dec F TUsize (l1 ++ l2 ++ rest) = Ok (VN 0, l2 ++ rest)).
  { apply (l_leaf F p L TUsize eq_refl I (VN 0) l1 (l2 ++ rest)); auto. - cbn. apply small_0. - discriminate. }
  rewrite R. cbn [bind find_name val_eqb N.eqb option_map nth_error]. rewrite (HB b l2 rest E2). reflexivity.
Qed.

(** In the storage format they are the same. *)
Lemma concat_u8 p o pk b : concat_res (enc p o pk (TU W8)) (map VN b) = Ok b.
Proof. induction b as [|x b IH]; [reflexivity|]. cbn [map concat_res]. rewrite IH. reflexivity. Qed.

Lemma octets_map b : octets (map VN b) = b.
Proof. induction b; [reflexivity|]. cbn. now f_equal. Qed.

Lemma unix_storage p o b : is_native_fixed p o = false ->
  storage_encode p o (either TBytes TBytes) (VVar 0 (VBytes b)) = storage_encode p o unix_read (VVar 0 (VList (map VN b))).
Proof.
  intros N. unfold storage_encode, either, unix_read. cbn [enc map fst snd nth_error]. unfold sel_enc. rewrite N. cbn [andb].
  destruct (encode_usize p o 0) as [x| |]; cbn [bind]; [|reflexivity|reflexivity].
  pose proof (concat_u8 p o false b) as CU. cbn [enc] in CU. rewrite CU. unfold lenN. rewrite map_length. reflexivity.
Qed.

Lemma unix_type p b : bytes_ok b = true -> lenN b < 2 ^ usize_bits p -> has_type p unix_read (VVar 0 (VList (map VN b))) = true.
Proof.
  intros Hb Hl. unfold unix_read. cbn [has_type nth_error map snd]. unfold len_ok. 
  assert (E : lenN (map VN b) = lenN b) by (unfold lenN; now rewrite map_length). rewrite E. apply N.ltb_lt in Hl. rewrite Hl.
  rewrite ?andb_true_l, ?andb_true_r. apply forallb_forall. intros x Hx. apply in_map_iff in Hx. destruct Hx as (y & <- & Hy).
  unfold bytes_ok in Hb. rewrite forallb_forall in Hb. exact (Hb y Hy).
Qed.

Lemma unix_wf p : wf p unix_read.
Proof. unfold unix_read. cbn [wf map allP fold_right snd fst forallb has_type distinct existsb]. rewrite !small_len by reflexivity. repeat split; auto. Qed.

Lemma written_pos s : parts s (fun t => posok false false false t = true) -> posok false false false (std_written s) = true.
Proof.
  destruct s; cbn [parts std_written either socket4 socket6 ip4 ip6 posok forallb snd map last_tail]; try reflexivity.
  - intros H. now rewrite H.
  - intros H. now rewrite H.
  - intros [H1 H2]. now rewrite H1, H2.
Qed.

Lemma std_storage_tup p o : storage_encode p o (TTup []) (VList []) = storage_encode p o TUnit VUnit.
Proof.
  unfold storage_encode. cbn [enc map enc_list]. change (lenN (@nil ty)) with 0. destruct (encode_usize p o 0) as [x| |]; [|reflexivity|reflexivity].
  cbn [bind]. now rewrite app_nil_r.
Qed.

Lemma pick_storage p o bs x r : storage_decode p o (either TBytes TBytes) bs = Ok (VVar 1 x, r) ->
  storage_decode p o (TEnum true TUsize [(VN 1, TBytes)]) bs = Ok (VVar 0 x, r).
Proof.
  unfold either, storage_decode. cbn [dec_ map fst snd nth_error find_name].
  match goal with |- context [bind ?X _] => destruct X as [[k r1]| |] end; cbn [bind]; try discriminate.
  destruct (val_eqb k (VN 0)) eqn:E0; cbn [option_map nth_error].
  { match goal with |- context [bind ?X _] => destruct X as [[]| |] end; cbn [bind]; discriminate. }
  destruct (val_eqb k (VN 1)) eqn:E1; cbn [option_map nth_error]; [|discriminate].
  match goal with |- context [bind ?X _] => destruct X as [[]| |] end; cbn [bind]; try discriminate. intros H. inversion H. reflexivity.
Qed.

Lemma cstr_ok_iff b : cstr_ok b = true <-> exists b', b = b' ++ [0] /\ ~ In 0 b'.
Proof.
  unfold cstr_ok. split.
  - intros H. destruct (rev b) as [|x r] eqn:E; [discriminate|]. destruct x; [|discriminate].
    exists (rev r). split; [rewrite <- (rev_involutive b), E; reflexivity|]. intros Hi. apply in_rev in Hi.
    rewrite forallb_forall in H. apply H in Hi. discriminate.
  - intros (b' & -> & H). rewrite rev_app_distr. cbn [rev app]. apply forallb_forall. intros x Hx. apply in_rev in Hx.
    apply negb_true_iff, N.eqb_neq. intros ->. contradiction.
Qed.
