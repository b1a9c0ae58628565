(** Property C81. Specification used: [EntriesSpec.v], and [has_type], [wf] of [Types.v], [FmtSpec.v]. *)
From Verif Require Import Base Options Int Utf8 Types Storage StorageSpec Fmt FmtSpec Wire Desc EntriesSpec
  BaseFacts IntFacts StorageFacts FmtFacts FmtSafe FmtEvolve SkipFacts WireFacts DescFacts EntriesFacts
  PropsInt PropsStorage PropsWire.
Local Open Scope N_scope.

(** * C81 *)

(** In the wire format: any sequence of entries, in any order, under any names, reads as the struct whose
    fields have the values of the last entries for them. *)
Theorem C81_wire_entries :
  forall p o kt fs es rs bs rest,
    entries_ok p o (wok o) kt es -> wf p (TStruct kt fs) -> readable es fs ->
    Forall2 (says es) fs rs ->
    entries_encode (wire p o) p o kt es = Ok bs ->
    1 + lenN bs < 2 ^ usize_bits p -> lenN es < 2 ^ usize_bits p ->
    wire_decode p o (TStruct kt fs) (bs ++ rest) = Ok (VList rs, rest).
Proof.
  exact (fun p o => g_entries (wire p o) p o (wok o) (wskip_n p o) (wire_rt_laws p o) (wire_skip_laws p o)).
Qed.
Print Assumptions C81_wire_entries.

(** Without an entry for a field that has no default, it is an error. *)
Theorem C81_wire_missing :
  forall p o kt fs es bs rest fr,
    entries_ok p o (wok o) kt es -> wf p (TStruct kt fs) -> readable es fs ->
    In fr fs -> unnamed es fr -> fdefault (fst fr) = None ->
    entries_encode (wire p o) p o kt es = Ok bs ->
    1 + lenN bs < 2 ^ usize_bits p -> lenN es < 2 ^ usize_bits p ->
    wire_decode p o (TStruct kt fs) (bs ++ rest) = Err.
Proof.
  exact (fun p o => g_entries_missing (wire p o) p o (wok o) (wskip_n p o) (wire_rt_laws p o) (wire_skip_laws p o)).
Qed.
Print Assumptions C81_wire_missing.

(** In the descriptive format. *)
Theorem C81_desc_entries :
  forall p o kt fs es rs bs rest,
    entries_ok p o (fun _ => true) kt es -> wf p (TStruct kt fs) -> readable es fs ->
    Forall2 (says es) fs rs ->
    entries_encode (descriptive p o) p o kt es = Ok bs ->
    1 + lenN bs < 2 ^ usize_bits p -> lenN es < 2 ^ usize_bits p ->
    descriptive_decode p o (TStruct kt fs) (bs ++ rest) = Ok (VList rs, rest).
Proof.
  exact (fun p o => g_entries (descriptive p o) p o (fun _ => true) (dskip_n p o) (desc_rt_laws p o) (desc_skip_laws p o)).
Qed.
Print Assumptions C81_desc_entries.

Theorem C81_desc_missing :
  forall p o kt fs es bs rest fr,
    entries_ok p o (fun _ => true) kt es -> wf p (TStruct kt fs) -> readable es fs ->
    In fr fs -> unnamed es fr -> fdefault (fst fr) = None ->
    entries_encode (descriptive p o) p o kt es = Ok bs ->
    1 + lenN bs < 2 ^ usize_bits p -> lenN es < 2 ^ usize_bits p ->
    descriptive_decode p o (TStruct kt fs) (bs ++ rest) = Err.
Proof.
  exact (fun p o => g_entries_missing (descriptive p o) p o (fun _ => true) (dskip_n p o) (desc_rt_laws p o) (desc_skip_laws p o)).
Qed.
Print Assumptions C81_desc_missing.

(** The order of the entries for different fields does not matter: two sequences that have the same last
    entries say the same. *)
Theorem C81_order :
  forall es es' fs rs,
    (forall e, last_entry es e <-> last_entry es' e) -> Forall2 (says es) fs rs -> Forall2 (says es') fs rs.
Proof.
  exact says_order.
Qed.
Print Assumptions C81_order.

(** What a struct's own encoder writes is such a sequence: one entry for each field that is not left out. *)
Theorem C81_struct :
  forall F p o kt fs vs bs,
    genc F p o (TStruct kt fs) (VList vs) = Ok bs ->
    entries_encode F p o kt (struct_entries fs vs) = Ok bs.
Proof.
  exact struct_is_entries.
Qed.
Print Assumptions C81_struct.

(** The field [n] twice, an unknown name between, the field [x] absent. *)
Definition ex_es : list entry :=
  [mkent (VBytes [110]) TStr (VBytes [65]);
   mkent (VBytes [111]) (TVec (TU W8)) (VList [VN 1; VN 2]);
   mkent (VBytes [101]) (TOpt (TU W16)) (VSome (VN 513));
   mkent (VBytes [110]) TStr (VBytes [66; 67])].
Definition ex_efs : list (finfo * ty) :=
  [(ex_key [101] None, TOpt (TU W16)); (ex_key [120] (Some (VN 5)), TU W32); (ex_key [110] None, TStr)].
Definition ex_ers : list val := [VSome (VN 513); VN 5; VBytes [66; 67]].

Example C81_nonvacuous :
  entries_ok ex_plat WIRE_OPTIONS (wok WIRE_OPTIONS) TStr ex_es /\
  wf ex_plat (TStruct TStr ex_efs) /\ readable ex_es ex_efs /\ Forall2 (says ex_es) ex_efs ex_ers /\
  exists bs, entries_encode (wire ex_plat WIRE_OPTIONS) ex_plat WIRE_OPTIONS TStr ex_es = Ok bs /\
    wire_decode ex_plat WIRE_OPTIONS (TStruct TStr ex_efs) (bs ++ [7]) = Ok (VList ex_ers, [7]).
Proof.
  split.
  { split; [repeat split; try reflexivity; discriminate|].
    intros e [<-|[<-|[<-|[<-|[]]]]]; repeat split; try reflexivity; discriminate. }
  split.
  { cbn [ex_efs wf allP map fold_right snd fst]. repeat split; try reflexivity.
    - intros ft d [<-|[<-|[<-|[]]]]; cbn; intros E; inversion E; reflexivity.
    - intros ft v [<-|[<-|[<-|[]]]]; cbn; try discriminate.
      destruct v as [| | n | | | | | | |]; try discriminate. intros E. destruct n as [|q]; [discriminate|]. apply Pos.eqb_eq in E. now subst. }
  split.
  { intros e fr [<-|[<-|[<-|[<-|[]]]]] [<-|[<-|[<-|[]]]] E; try discriminate E; eexists; apply U_same. }
  split.
  { unfold ex_efs, ex_ers. repeat (apply Forall2_cons || apply Forall2_nil).
    - left. exists (mkent (VBytes [101]) (TOpt (TU W16)) (VSome (VN 513))). split; [|split; [reflexivity|apply U_same]].
      exists (firstn 2 ex_es), (skipn 3 ex_es). split; [reflexivity|]. intros e' [<-|[]]. discriminate.
    - right. split; [|reflexivity]. intros e [<-|[<-|[<-|[<-|[]]]]]; discriminate.
    - left. exists (mkent (VBytes [110]) TStr (VBytes [66; 67])). split; [|split; [reflexivity|apply U_same]].
      exists (firstn 3 ex_es), []. split; [reflexivity|]. intros e' []. }
  eexists. split; vm_compute; reflexivity.
Qed.

Example C81_missing_nonvacuous :
  unnamed ex_es (ex_key [121] None, TStr) /\
  exists bs, entries_encode (descriptive ex_plat DESCRIPTIVE_OPTIONS) ex_plat DESCRIPTIVE_OPTIONS TStr ex_es = Ok bs /\
    descriptive_decode ex_plat DESCRIPTIVE_OPTIONS (TStruct TStr [(ex_key [121] None, TStr)]) bs = Err.
Proof.
  split; [intros e [<-|[<-|[<-|[<-|[]]]]]; discriminate|]. eexists. split; vm_compute; reflexivity.
Qed.

Example C81_struct_nonvacuous :
  exists bs, genc (wire ex_plat WIRE_OPTIONS) ex_plat WIRE_OPTIONS (TStruct TStr ex_efs) (VList ex_ers) = Ok bs /\
    struct_entries ex_efs ex_ers = [mkent (VBytes [101]) (TOpt (TU W16)) (VSome (VN 513));
      mkent (VBytes [110]) TStr (VBytes [66; 67])].
Proof. eexists. split; vm_compute; reflexivity. Qed.
