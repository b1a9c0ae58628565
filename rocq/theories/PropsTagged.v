(** Properties C62-C65: internally tagged, adjacently tagged and untagged enums, and fallback
    variants. Specifications used: [has_type] and [wf] of [Types.v], [FmtSpec.v], [AnySpec.v] and
    [TaggedSpec.v]. *)
From Verif Require Import Base Options Int Utf8 Types Storage StorageSpec Fmt FmtSpec Wire Desc Value ValueSpec Any AnySpec
  Tagged TaggedSpec BaseFacts IntFacts TypesFacts DecFacts StorageFacts StorageSafe FmtFacts FmtSafe FmtStab WireFacts DescFacts
  StabFacts ValueFacts AnyFacts TaggedFacts PropsInt PropsStorage.
Local Open Scope N_scope.

(** The enum of the examples:
    [#[musli(tag = "t", content = "c")] enum E { a { n: String, l: Vec<i32> = [] }, b { k: u8 } }]. *)
Definition ex_enum : tenum := {|
  e_key := TStr; e_tag := VBytes [116]; e_content := VBytes [99]; e_name := TStr;
  e_vars := [(VBytes [97], TStruct TStr [(ex_key [110] None, TStr); (ex_key [108] (Some (VList [])), TVec (TI W32))]);
             (VBytes [98], TStruct TStr [(ex_key [107] None, TU W8)])]
|}.
Definition ex_enum_val : val := VVar 0 (VList [VBytes [195; 169]; VList [VZ 5; VZ (-1)]]).

Lemma ex_enum_wf : ewf ex_plat ex_enum.
Proof.
  split; [|repeat split; discriminate]. cbn [plain ex_enum e_name e_vars wf allP map fold_right snd fst].
  repeat split; try reflexivity.
  - intros ft d [<-|[<-|[]]]; cbn; intros E; inversion E; reflexivity.
  - intros ft v [<-|[<-|[]]]; cbn; try discriminate. destruct v as [| | | | | | |[|]| |]; try discriminate. reflexivity.
  - intros ft d [<-|[]]; cbn; intros E; inversion E; reflexivity.
  - intros ft v [<-|[]]; cbn; discriminate.
Qed.

(** * C62 *)

(** An internally tagged enum is written as a struct: the tag with the name of the variant,
    then the fields of the variant. *)
Theorem C62_internal_is_struct :
  forall F p o e i name fs vs, nth_error (e_vars e) i = Some (name, TStruct (e_key e) fs) ->
    int_enc (of_fmt F p o) e (VVar i (VList vs)) = genc F p o (with_tag e [] fs) (VList (name :: vs)).
Proof.
  intros F p o e i name fs vs Hi. unfold with_tag. cbn [int_enc app]. rewrite Hi.
  cbn [of_fmt m_enc m_map_enc genc map fst snd count_fields always fskip enc_fields fname].
  destruct (f_map_enc F (1 + count_fields (map fst fs) vs)); cbn [bind]; try reflexivity.
  destruct (genc F p o (e_key e) (e_tag e)); cbn [bind]; try reflexivity.
  destruct (genc F p o (e_name e) name); cbn [bind]; try reflexivity.
  destruct (enc_fields _ _ vs); cbn [bind]; try reflexivity.
Qed.
Print Assumptions C62_internal_is_struct.

(** Round trip in the descriptive format. Missing: packed structs in it when the options are not
    the default ones (see [C59]), and the enums refuted below. *)
Theorem C62_internal_roundtrip_partial :
  forall p o e v bs rest, ewf p e -> internal_ok p e -> each_ty (buf_ok p o) e ->
    has_type p (plain e) v = true -> int_enc (of_fmt (descriptive p o) p o) e v = Ok bs ->
    int_dec p o e (bs ++ rest) = Ok (v, rest).
Proof.
  intros p o e v bs rest Hw Hi Hb Hv He. destruct v as [| | | | | | | | |i x]; try discriminate.
  destruct (ewf_var p e i x Hw Hv) as (name & t & Hn & Hx & _).
  destruct (Hi name t (nth_error_In _ _ Hn)) as (fs & -> & Hwt).
  destruct x as [| | | | | | |vs| |]; try discriminate.
  rewrite C62_internal_is_struct with (name := name) (fs := fs) in He by assumption.
  exact (int_struct_rt p o e i name [] fs [] vs bs rest Hw Hb Hn Hwt eq_refl Hx He).
Qed.
Print Assumptions C62_internal_roundtrip_partial.

(** The tag is found wherever it is among the fields. *)
Theorem C62_internal_any_position_partial :
  forall p o e i name fs1 fs2 vs1 vs2 bs rest,
    ewf p e -> each_ty (buf_ok p o) e ->
    nth_error (e_vars e) i = Some (name, TStruct (e_key e) (fs1 ++ fs2)) -> wf p (with_tag e fs1 fs2) ->
    fields_of p fs1 vs1 -> fields_of p fs2 vs2 ->
    descriptive_encode p o (with_tag e fs1 fs2) (VList (vs1 ++ name :: vs2)) = Ok bs ->
    int_dec p o e (bs ++ rest) = Ok (VVar i (VList (vs1 ++ vs2)), rest).
Proof.
  intros p o e i name fs1 fs2 vs1 vs2 bs rest Hw Hb Hi Hwt [L1 T1] [L2 T2] He.
  apply (int_struct_rt p o e i name fs1 fs2 vs1 vs2 bs rest); try assumption.
  cbn [has_type]. now apply all2_join.
Qed.
Print Assumptions C62_internal_any_position_partial.

(** Any input: a value of the enum and a suffix of the input, or an error. *)
Theorem C62_internal_safe :
  forall p o e bs, ewf p e -> bytes_ok bs = true ->
    match int_dec p o e bs with
    | Ok (v, r) => has_type p (plain e) v = true /\ exists used, bs = used ++ r
    | Err => True
    | Panic => False
    end.
Proof.
  intros p o e bs Hw Hok. unfold int_dec.
  pose proof (dany_stab p o (length bs) bs [] Hok) as H. unfold desc_decode_value.
  destruct (dany (length bs) p o bs) as [[x r]| |]; cbn [bind]; try exact Logic.I; [|destruct H; contradiction].
  destruct H as (Hx & Hu & _). pose proof (int_dec_value_safe p BUFFER_OPTIONS false e x Hw Hx) as Hs.
  destruct (int_dec_value p BUFFER_OPTIONS false e x) as [v| |]; cbn [bind]; try exact Logic.I; [|contradiction].
  now split.
Qed.
Print Assumptions C62_internal_safe.

(** Encoding succeeds for every value of the enum whose lengths fit the address space ([fits]). *)
Theorem C62_internal_total :
  forall p o e i name fs vs, ewf p e -> internal_ok p e -> lengths_fit p o ->
    nth_error (e_vars e) i = Some (name, TStruct (e_key e) fs) ->
    has_type p (plain e) (VVar i (VList vs)) = true -> fits p o (with_tag e [] fs) (VList (name :: vs)) = true ->
    exists bs, int_enc (of_fmt (descriptive p o) p o) e (VVar i (VList vs)) = Ok bs /\ bytes_ok bs = true.
Proof.
  intros p o e i name fs vs Hw Hi Hl Hn Hv Hf.
  destruct (ewf_var p e i _ Hw Hv) as (name' & t & Hn' & Hx & _ & Hnt & _).
  rewrite Hn in Hn'. inversion Hn'; subst name' t. clear Hn'.
  destruct (Hi name _ (nth_error_In _ _ Hn)) as (fs' & E & Hwt). inversion E; subst fs'. clear E.
  rewrite C62_internal_is_struct with (name := name) (fs := fs) by assumption.
  refine (genc_total (descriptive p o) p o _ (desc_tot_laws p o Hl) Hl Hwt _ _).
  rewrite Hf, andb_true_r. cbn [with_tag has_type app map all2 snd] in *. rewrite Hnt. exact Hx.
Qed.
Print Assumptions C62_internal_total.

Example C62_nonvacuous :
  ewf ex_plat ex_enum /\ internal_ok ex_plat ex_enum /\ each_ty (buf_ok ex_plat DESCRIPTIVE_OPTIONS) ex_enum /\
  has_type ex_plat (plain ex_enum) ex_enum_val = true /\ lengths_fit ex_plat DESCRIPTIVE_OPTIONS /\
  fits ex_plat DESCRIPTIVE_OPTIONS (with_tag ex_enum [] [(ex_key [110] None, TStr); (ex_key [108] (Some (VList [])), TVec (TI W32))])
    (VList [VBytes [97]; VBytes [195; 169]; VList [VZ 5; VZ (-1)]]) = true /\
  exists bs, int_enc (of_fmt (descriptive ex_plat DESCRIPTIVE_OPTIONS) ex_plat DESCRIPTIVE_OPTIONS) ex_enum ex_enum_val = Ok bs /\
    length bs = 17%nat /\ int_dec ex_plat DESCRIPTIVE_OPTIONS ex_enum (bs ++ [1]) = Ok (ex_enum_val, [1]) /\
    bytes_ok bs = true.
Proof.
  split; [exact ex_enum_wf|]. split.
  { intros name t [E|[E|[]]]; inversion E; eexists; (split; [reflexivity|]); cbn [with_tag ex_enum e_key e_name e_tag app wf allP map fold_right snd fst];
      repeat split; try reflexivity; clear E.
    - intros ft d [<-|[<-|[<-|[]]]]; cbn; intros E; inversion E; reflexivity.
    - intros ft v [<-|[<-|[<-|[]]]]; cbn; try discriminate. destruct v as [| | | | | | |[|]| |]; try discriminate. reflexivity.
    - intros ft d [<-|[<-|[]]]; cbn; intros E; inversion E; reflexivity.
    - intros ft v [<-|[<-|[]]]; cbn; discriminate. }
  split.
  { split; [left; reflexivity|]. split; [left; reflexivity|]. intros name t [E|[E|[]]]; inversion E; left; reflexivity. }
  split; [reflexivity|]. split; [left; reflexivity|]. split; [vm_compute; reflexivity|].
  eexists. split; [vm_compute; reflexivity|]. do 2 (split; [vm_compute; reflexivity|]). vm_compute. reflexivity.
Qed.

(** Without [internal_ok] this fails. A variant whose fields have names of another type than the
    tag, like the unnamed fields of [enum E { a(u8) }] with [tag = "t"]: it is encoded, and
    nothing decodes it. *)
Theorem C62_field_names_refuted :
  exists p o e v bs, ewf p e /\ has_type p (plain e) v = true /\
    int_enc (of_fmt (descriptive p o) p o) e v = Ok bs /\ int_dec p o e bs = Err.
Proof.
  exists ex_plat, DESCRIPTIVE_OPTIONS,
    {| e_key := TStr; e_tag := VBytes [116]; e_content := VBytes [99]; e_name := TStr;
       e_vars := [(VBytes [97], TStruct TUsize [(always (VN 0), TU W8)])] |}, (VVar 0 (VList [VN 5])).
  eexists. split.
  { split; [|repeat split; discriminate]. cbn [plain e_name e_vars wf allP map fold_right snd fst].
    repeat split; try reflexivity; intros ft d [<-|[]]; cbn; discriminate. }
  split; [reflexivity|]. split; [vm_compute; reflexivity|vm_compute; reflexivity].
Qed.
Print Assumptions C62_field_names_refuted.

(** A field with the name of the tag: the value is encoded and decoded as another value. *)
Theorem C62_collision_refuted :
  exists p o e v v' bs, ewf p e /\ has_type p (plain e) v = true /\
    int_enc (of_fmt (descriptive p o) p o) e v = Ok bs /\ int_dec p o e bs = Ok (v', []) /\ v' <> v.
Proof.
  exists ex_plat, DESCRIPTIVE_OPTIONS,
    {| e_key := TStr; e_tag := VBytes [116]; e_content := VBytes [99]; e_name := TStr;
       e_vars := [(VBytes [97], TStruct TStr [({| fname := VBytes [116]; fdefault := Some (VBytes []);
                                                   fskip := val_eqb (VBytes []) |}, TStr)])] |},
    (VVar 0 (VList [VBytes []])), (VVar 0 (VList [VBytes [97]])).
  eexists. split.
  { split; [|repeat split; discriminate]. cbn [plain e_name e_vars wf allP map fold_right snd fst].
    repeat split; try reflexivity.
    - intros ft d [<-|[]]; cbn; intros E; inversion E; reflexivity.
    - intros ft v [<-|[]]; cbn [fst fskip fdefault]; intros E. apply val_eqb_eq in E. now subst. }
  split; [reflexivity|]. split; [vm_compute; reflexivity|]. split; [vm_compute; reflexivity|]. discriminate.
Qed.
Print Assumptions C62_collision_refuted.

(** * C63 *)

(** Round trip of adjacently tagged enums in the three formats. *)
Theorem C63_adjacent_wire :
  forall p o e v bs rest, ewf p e -> each_ty (packs_ok p o) e -> has_type p (plain e) v = true ->
    adj_enc (of_fmt (wire p o) p o) e v = Ok bs ->
    adj_dec (of_fmt (wire p o) p o) e (bs ++ rest) = Ok (v, rest).
Proof.
  intros p o e v bs rest Hw (Hk & Hn & Hb) Hv He. pose proof (wire_rt_laws p o) as HR. pose proof Hw as (Hwp & Hwk & _).
  pose proof Hwp as (Hwn & Hwb & _).
  apply (adj_rt (of_fmt (wire p o) p o) p e Hw); try assumption; try discriminate.
  - exact (g_roundtrip (wire p o) p o _ HR Hwk Hk).
  - exact (g_roundtrip (wire p o) p o _ HR Hwn Hn).
  - intros name t Hin. refine (g_roundtrip (wire p o) p o _ HR _ (Hb name t Hin)).
    rewrite allP_Forall, Forall_forall in Hwb. exact (Hwb _ Hin).
  - intros n b r Hlt E. exact (l_map _ _ HR n b r Hlt E).
Qed.
Print Assumptions C63_adjacent_wire.

Theorem C63_adjacent_desc :
  forall p o e v bs rest, ewf p e -> each_ty (packs_ok p o) e -> has_type p (plain e) v = true ->
    adj_enc (of_fmt (descriptive p o) p o) e v = Ok bs ->
    adj_dec (of_fmt (descriptive p o) p o) e (bs ++ rest) = Ok (v, rest).
Proof.
  intros p o e v bs rest Hw (Hk & Hn & Hb) Hv He. pose proof (desc_rt_laws p o) as HR. pose proof Hw as (Hwp & Hwk & _).
  pose proof Hwp as (Hwn & Hwb & _).
  apply (adj_rt (of_fmt (descriptive p o) p o) p e Hw); try assumption; try discriminate.
  - exact (g_roundtrip (descriptive p o) p o _ HR Hwk Hk).
  - exact (g_roundtrip (descriptive p o) p o _ HR Hwn Hn).
  - intros name t Hin. refine (g_roundtrip (descriptive p o) p o _ HR _ (Hb name t Hin)).
    rewrite allP_Forall, Forall_forall in Hwb. exact (Hwb _ Hin).
  - intros n b r Hlt E. exact (l_map _ _ HR n b r Hlt E).
Qed.
Print Assumptions C63_adjacent_desc.

(** Storage: unless the options select the raw memory path. *)
Theorem C63_adjacent_storage_partial :
  forall p o e v bs rest, is_native_fixed p o = false -> ewf p e ->
    each_ty (fun t => posok false false false t = true) e -> has_type p (plain e) v = true ->
    adj_enc (of_storage p o) e v = Ok bs ->
    adj_dec (of_storage p o) e (bs ++ rest) = Ok (v, rest).
Proof.
  intros p o e v bs rest Hnf Hw (Hk & Hn & Hb) Hv He. pose proof Hw as (Hwp & Hwk & _).
  pose proof Hwp as (Hwn & Hwb & _).
  assert (HR : forall t, wf p t -> posok false false false t = true -> rt false (has_type p t) (enc p o false t) (dec_ p o false t)).
  { intros t Ht Hp x b r Hx _ E. exact (C09_storage_roundtrip p o t x b r Hnf Ht Hp Hx E). }
  apply (adj_rt (of_storage p o) p e Hw); try assumption; try discriminate.
  - exact (HR _ Hwk Hk).
  - exact (HR _ Hwn Hn).
  - intros name t Hin. refine (HR _ _ (Hb name t Hin)).
    rewrite allP_Forall, Forall_forall in Hwb. exact (Hwb _ Hin).
  - intros n b r Hlt E. cbn [of_storage m_map_enc m_map_dec] in *. exact (usize_roundtrip p o n b r Hlt E).
Qed.
Print Assumptions C63_adjacent_storage_partial.

(** Other entries before, between and after the tag and the content are ignored. [other]: a
    field of any type with another name. *)
Theorem C63_adjacent_wire_others_partial :
  forall p o e pre mid post vs1 vs2 vs3 i name t x bs rest,
    ewf p e -> each_ty (packs_ok p o) e -> leaves (wok o) (e_key e) = true ->
    Forall (other p (wok o) e) pre -> Forall (other p (wok o) e) mid -> Forall (other p (wok o) e) post ->
    fields_of p pre vs1 -> fields_of p mid vs2 -> fields_of p post vs3 ->
    lenN (pre ++ mid ++ post) + 2 < 2 ^ usize_bits p ->
    nth_error (e_vars e) i = Some (name, t) -> has_type p t x = true ->
    wire_encode p o
      (TStruct (e_key e) (pre ++ (always (e_tag e), e_name e) :: mid ++ (always (e_content e), t) :: post))
      (VList (vs1 ++ name :: vs2 ++ x :: vs3)) = Ok bs ->
    1 + lenN bs < 2 ^ usize_bits p ->
    adj_dec (of_fmt (wire p o) p o) e (bs ++ rest) = Ok (VVar i x, rest).
Proof.
  intros p o e pre mid post vs1 vs2 vs3 i name t x bs rest Hw Hp Hk O1 O2 O3 [L1 T1] [L2 T2] [L3 T3] HB Hi Hx He Hlen.
  exact (adj_struct (wire p o) p o (wok o) (wskip_n p o) e Hw (wire_skip_laws p o) (wire_rt_laws p o) Hp Hk
    pre mid post vs1 vs2 vs3 i name t x bs rest O1 O2 O3 T1 T2 T3 L1 L2 HB Hi Hx He Hlen).
Qed.
Print Assumptions C63_adjacent_wire_others_partial.

Theorem C63_adjacent_desc_others :
  forall p o e pre mid post vs1 vs2 vs3 i name t x bs rest,
    ewf p e -> each_ty (packs_ok p o) e ->
    Forall (other p (fun _ => true) e) pre -> Forall (other p (fun _ => true) e) mid -> Forall (other p (fun _ => true) e) post ->
    fields_of p pre vs1 -> fields_of p mid vs2 -> fields_of p post vs3 ->
    lenN (pre ++ mid ++ post) + 2 < 2 ^ usize_bits p ->
    nth_error (e_vars e) i = Some (name, t) -> has_type p t x = true ->
    descriptive_encode p o
      (TStruct (e_key e) (pre ++ (always (e_tag e), e_name e) :: mid ++ (always (e_content e), t) :: post))
      (VList (vs1 ++ name :: vs2 ++ x :: vs3)) = Ok bs ->
    1 + lenN bs < 2 ^ usize_bits p ->
    adj_dec (of_fmt (descriptive p o) p o) e (bs ++ rest) = Ok (VVar i x, rest).
Proof.
  intros p o e pre mid post vs1 vs2 vs3 i name t x bs rest Hw Hp O1 O2 O3 [L1 T1] [L2 T2] [L3 T3] HB Hi Hx He Hlen.
  exact (adj_struct (descriptive p o) p o (fun _ => true) (dskip_n p o) e Hw (desc_skip_laws p o) (desc_rt_laws p o) Hp
    (leaves_all _ _ (fun _ => eq_refl))
    pre mid post vs1 vs2 vs3 i name t x bs rest O1 O2 O3 T1 T2 T3 L1 L2 HB Hi Hx He Hlen).
Qed.
Print Assumptions C63_adjacent_desc_others.

(** The content before the tag is an error, whatever the rest. *)
Theorem C63_content_first_wire :
  forall p o e pre post vs1 vs3 t x bs rest,
    ewf p e -> each_ty (packs_ok p o) e -> leaves (wok o) (e_key e) = true ->
    Forall (other p (wok o) e) pre -> fields_of p pre vs1 ->
    lenN (pre ++ post) + 1 < 2 ^ usize_bits p ->
    wire_encode p o (TStruct (e_key e) (pre ++ (always (e_content e), t) :: post)) (VList (vs1 ++ x :: vs3)) = Ok bs ->
    1 + lenN bs < 2 ^ usize_bits p ->
    adj_dec (of_fmt (wire p o) p o) e (bs ++ rest) = Err.
Proof.
  intros p o e pre post vs1 vs3 t x bs rest Hw Hp Hk O1 [L1 T1] HB He Hlen.
  exact (adj_swapped (wire p o) p o (wok o) (wskip_n p o) e Hw (wire_skip_laws p o) (wire_rt_laws p o) Hp
    pre post vs1 vs3 t x bs rest O1 T1 L1 HB He Hlen).
Qed.
Print Assumptions C63_content_first_wire.

Theorem C63_content_first_desc :
  forall p o e pre post vs1 vs3 t x bs rest,
    ewf p e -> each_ty (packs_ok p o) e ->
    Forall (other p (fun _ => true) e) pre -> fields_of p pre vs1 ->
    lenN (pre ++ post) + 1 < 2 ^ usize_bits p ->
    descriptive_encode p o (TStruct (e_key e) (pre ++ (always (e_content e), t) :: post)) (VList (vs1 ++ x :: vs3)) = Ok bs ->
    1 + lenN bs < 2 ^ usize_bits p ->
    adj_dec (of_fmt (descriptive p o) p o) e (bs ++ rest) = Err.
Proof.
  intros p o e pre post vs1 vs3 t x bs rest Hw Hp O1 [L1 T1] HB He Hlen.
  exact (adj_swapped (descriptive p o) p o (fun _ => true) (dskip_n p o) e Hw (desc_skip_laws p o) (desc_rt_laws p o) Hp
    pre post vs1 vs3 t x bs rest O1 T1 L1 HB He Hlen).
Qed.
Print Assumptions C63_content_first_desc.

(** Any input: a value of the enum and a suffix of the input, whatever follows it. Wire and
    descriptive: the code may still panic where [skip] does (see [C41]). *)
Theorem C63_adjacent_typed :
  forall p o e bs ext, ewf p e -> bytes_ok bs = true ->
    let good M := forall v r, adj_dec M e bs = Ok (v, r) ->
      has_type p (plain e) v = true /\ (exists used, bs = used ++ r) /\ adj_dec M e (bs ++ ext) = Ok (v, r ++ ext) in
    (plain_width o = true -> good (of_fmt (wire p o) p o)) /\ good (of_fmt (descriptive p o) p o).
Proof.
  intros p o e bs ext Hw Hb good.
  assert (H : forall F, stab_laws F p -> good (of_fmt F p o)).
  { intros F L v r E. pose proof Hw as (Hwp & Hwk & _). destruct Hwp as (Hwn & Hwb & _).
    assert (HS : stab True (fun v => has_type p (plain e) v = true) (adj_dec (of_fmt F p o) e)).
    { apply adj_stab; try assumption; cbn [of_fmt m_dec m_map_dec m_skip].
      - apply g_stab; auto.
      - apply g_stab; auto.
      - intros name t Hin. apply g_stab; auto. rewrite allP_Forall, Forall_forall in Hwb. exact (Hwb _ Hin).
      - apply (stab_pan False); [tauto|]. apply (st_map F p L).
      - apply (st_skip F p L). }
    specialize (HS bs ext Hb). rewrite E in HS. exact HS. }
  split; [intros Hp; apply H; now apply wire_stab_laws|apply H, desc_stab_laws].
Qed.
Print Assumptions C63_adjacent_typed.

(** Storage never panics. *)
Theorem C63_adjacent_storage_safe :
  forall p o e bs, ewf p e -> bytes_ok bs = true ->
    match adj_dec (of_storage p o) e bs with
    | Ok (v, r) => has_type p (plain e) v = true /\ exists used, bs = used ++ r
    | Err => True
    | Panic => False
    end.
Proof.
  intros p o e bs Hw Hb. exact (adj_sound p o e Hw bs Hb).
Qed.
Print Assumptions C63_adjacent_storage_safe.

Definition ex_wire_medium := of_fmt (wire ex_plat WIRE_OPTIONS) ex_plat WIRE_OPTIONS.
Definition ex_desc_medium := of_fmt (descriptive ex_plat DESCRIPTIVE_OPTIONS) ex_plat DESCRIPTIVE_OPTIONS.
Definition ex_other : finfo * ty := (always (VBytes [122]), TVec (TU W16)).

Example C63_nonvacuous :
  ewf ex_plat ex_enum /\ each_ty (packs_ok ex_plat WIRE_OPTIONS) ex_enum /\
  each_ty (fun t => posok false false false t = true) ex_enum /\ is_native_fixed ex_plat STORAGE_OPTIONS = false /\
  has_type ex_plat (plain ex_enum) ex_enum_val = true /\ leaves (wok WIRE_OPTIONS) TStr = true /\
  other ex_plat (wok WIRE_OPTIONS) ex_enum ex_other /\
  (exists bs, adj_enc (of_storage ex_plat STORAGE_OPTIONS) ex_enum ex_enum_val = Ok bs /\
     bs = [2; 1; 116; 1; 97; 1; 99; 2; 1; 110; 2; 195; 169; 1; 108; 2; 10; 1] /\
     adj_dec (of_storage ex_plat STORAGE_OPTIONS) ex_enum (bs ++ [9]) = Ok (ex_enum_val, [9])) /\
  (exists bs, adj_enc ex_wire_medium ex_enum ex_enum_val = Ok bs /\ adj_dec ex_wire_medium ex_enum (bs ++ [9]) = Ok (ex_enum_val, [9])) /\
  (exists bs, adj_enc ex_desc_medium ex_enum ex_enum_val = Ok bs /\ adj_dec ex_desc_medium ex_enum (bs ++ [9]) = Ok (ex_enum_val, [9])) /\
  exists bs, wire_encode ex_plat WIRE_OPTIONS
      (TStruct TStr [ex_other; (always (VBytes [116]), TStr); (always (VBytes [99]), TStruct TStr [(ex_key [107] None, TU W8)]); ex_other])
      (VList [VList [VN 1]; VBytes [98]; VList [VN 7]; VList []]) = Ok bs /\
    adj_dec ex_wire_medium ex_enum bs = Ok (VVar 1 (VList [VN 7]), []).
Proof.
  split; [exact ex_enum_wf|]. split.
  { split; [split; [reflexivity|vm_compute; discriminate]|]. split; [split; [reflexivity|vm_compute; discriminate]|].
    intros name t [E|[E|[]]]; inversion E; (split; [reflexivity|vm_compute; discriminate]). }
  split.
  { split; [reflexivity|]. split; [reflexivity|]. intros name t [E|[E|[]]]; inversion E; reflexivity. }
  split; [reflexivity|]. split; [reflexivity|]. split; [reflexivity|]. split.
  { split; [exact Logic.I|]. split; [reflexivity|]. split; [reflexivity|]. split; discriminate. }
  split; [eexists; split; [vm_compute; reflexivity|]; split; [vm_compute; reflexivity|vm_compute; reflexivity]|].
  do 2 (split; [eexists; split; [vm_compute; reflexivity|vm_compute; reflexivity]|]). eexists; split; [vm_compute; reflexivity|vm_compute; reflexivity].
Qed.

(** The order of entries is not significant in a map, but here the same entries in the other
    order are an error. *)
Theorem C63_order_refuted :
  exists p o e v b1 b2, ewf p e /\ has_type p (plain e) v = true /\
    (exists name t x, v = VVar 0 x /\ nth_error (e_vars e) 0 = Some (name, t) /\
      descriptive_encode p o (TStruct (e_key e) [(always (e_tag e), e_name e); (always (e_content e), t)]) (VList [name; x]) = Ok b1 /\
      descriptive_encode p o (TStruct (e_key e) [(always (e_content e), t); (always (e_tag e), e_name e)]) (VList [x; name]) = Ok b2) /\
    adj_dec (of_fmt (descriptive p o) p o) e b1 = Ok (v, []) /\
    adj_dec (of_fmt (descriptive p o) p o) e b2 = Err.
Proof.
  exists ex_plat, DESCRIPTIVE_OPTIONS, ex_enum, ex_enum_val. do 2 eexists.
  split; [exact ex_enum_wf|]. split; [reflexivity|]. split.
  { do 3 eexists. split; [reflexivity|]. split; [reflexivity|]. split; [vm_compute; reflexivity|vm_compute; reflexivity]. }
  split; [vm_compute; reflexivity|vm_compute; reflexivity].
Qed.
Print Assumptions C63_order_refuted.

(** * C64 *)

(** An untagged enum is the first variant that accepts the input. *)
Theorem C64_first_accepting :
  forall M ts bs v r, unt_dec M ts bs = Ok (v, r) ->
    exists j t x r', v = VVar j x /\ nth_error ts j = Some t /\ m_dec M t bs = Ok (x, r') /\
      forall k t', (k < j)%nat -> nth_error ts k = Some t' -> m_dec M t' bs = Err.
Proof. intros M ts bs v r H. exact (unt_from_inv M ts 0 bs v r H). Qed.
Print Assumptions C64_first_accepting.

(** What [encode] writes for a variant decodes to the same value if the variants before it reject it.
    Missing: the reader is past the value only for the last variant, see below. *)
Theorem C64_untagged_roundtrip_partial :
  forall p o ts j t x bs rest, nth_error ts j = Some t -> wf p t -> has_type p t x = true ->
    let good M := unt_enc M ts (VVar j x) = Ok bs ->
      (forall k t', (k < j)%nat -> nth_error ts k = Some t' -> m_dec M t' (bs ++ rest) = Err) ->
      exists r, unt_dec M ts (bs ++ rest) = Ok (VVar j x, r) /\ (S j = length ts -> r = rest) in
    (packs_ok p o t -> good (of_fmt (wire p o) p o) /\ good (of_fmt (descriptive p o) p o)) /\
    (posok false false false t = true -> is_native_fixed p o = false -> good (of_storage p o)).
Proof.
  intros p o ts j t x bs rest Hj Hw Hx good.
  assert (H : forall M, rt false (has_type p t) (m_enc M t) (m_dec M t) -> good M).
  { intros M HR He Hrej. cbn [unt_enc] in He. rewrite Hj in He.
    specialize (HR x bs rest Hx ltac:(discriminate) He).
    eexists. split; [exact (unt_from_hit M ts 0 j t (bs ++ rest) x rest Hj Hrej HR)|].
    intros E. rewrite E, Nat.eqb_refl. reflexivity. }
  split; [intros Hp; split; apply H|intros Hp Hn; apply H].
  - exact (g_roundtrip (wire p o) p o t (wire_rt_laws p o) Hw Hp).
  - exact (g_roundtrip (descriptive p o) p o t (desc_rt_laws p o) Hw Hp).
  - intros y b r Hy _ E. exact (C09_storage_roundtrip p o t y b r Hn Hw Hp Hy E).
Qed.
Print Assumptions C64_untagged_roundtrip_partial.

(** Any input: a value of one of the variants. *)
Theorem C64_untagged_typed :
  forall p o ts bs, Forall (wf p) ts -> bytes_ok bs = true ->
    let good M := forall v r, unt_dec M ts bs = Ok (v, r) ->
      exists j t x, v = VVar j x /\ nth_error ts j = Some t /\ has_type p t x = true in
    (plain_width o = true -> good (of_fmt (wire p o) p o)) /\ good (of_fmt (descriptive p o) p o) /\ good (of_storage p o).
Proof.
  intros p o ts bs Hw Hb good. rewrite Forall_forall in Hw.
  assert (H : forall M, (forall t, wf p t -> soundx True (fun v => has_type p t v = true) (m_dec M t)) -> good M).
  { intros M HM v r E. destruct (C64_first_accepting M ts bs v r E) as (j & t & x & r' & -> & Hj & Hd & _).
    exists j, t, x. split; [reflexivity|]. split; [assumption|].
    specialize (HM t (Hw t (nth_error_In _ _ Hj)) bs Hb). rewrite Hd in HM. intuition. }
  split; [intros Hp; apply H|split; apply H]; intros t Ht.
  - apply stab_sound. apply g_stab; auto. now apply wire_stab_laws.
  - apply stab_sound. apply g_stab; auto. apply desc_stab_laws.
  - intros b Hb'. pose proof (dec_sound p o t false Ht b Hb') as Hs.
    cbn [of_storage m_dec]. destruct (dec_ p o false t b) as [[y r]| |]; auto.
Qed.
Print Assumptions C64_untagged_typed.

(** The untagged enum [enum U { A(u8), B(String) }] with transparent variants. *)
Definition ex_untagged : list ty := [TU W8; TStr].

Example C64_nonvacuous :
  nth_error ex_untagged 1 = Some TStr /\ wf ex_plat TStr /\ has_type ex_plat TStr (VBytes [195; 169]) = true /\
  Forall (wf ex_plat) ex_untagged /\ packs_ok ex_plat WIRE_OPTIONS TStr /\
  exists bs, unt_enc ex_wire_medium ex_untagged (VVar 1 (VBytes [195; 169])) = Ok bs /\
    m_dec ex_wire_medium (TU W8) (bs ++ [7]) = Err /\
    unt_dec ex_wire_medium ex_untagged (bs ++ [7]) = Ok (VVar 1 (VBytes [195; 169]), [7]).
Proof.
  split; [reflexivity|]. split; [exact Logic.I|]. split; [reflexivity|].
  split; [repeat constructor|]. split; [split; [reflexivity|vm_compute; discriminate]|].
  eexists. split; [vm_compute; reflexivity|]. split; [vm_compute; reflexivity|vm_compute; reflexivity].
Qed.

(** Inside of another value, decoding a variant that is not the last leaves the reader in front of
    it: the list [[A(1), A(2)]] decodes as [[A(1), A(1)]], without an error, although every
    element alone is decoded back. *)
Theorem C64_nested_refuted :
  exists p o ts vs vs' bs r, let M := of_fmt (descriptive p o) p o in
    Forall (fun v => exists b, unt_enc M ts v = Ok b /\ exists r, unt_dec M ts b = Ok (v, r)) vs /\
    seq_enc (descriptive p o) (unt_enc M ts) vs = Ok bs /\
    seq_dec (descriptive p o) (unt_dec M ts) bs = Ok (vs', r) /\ vs' <> vs.
Proof.
  exists ex_plat, DESCRIPTIVE_OPTIONS, ex_untagged, [VVar 0 (VN 1); VVar 0 (VN 2)], [VVar 0 (VN 1); VVar 0 (VN 1)].
  do 2 eexists. cbv zeta. split.
  { repeat constructor; eexists; (split; [vm_compute; reflexivity|]); eexists; vm_compute; reflexivity. }
  split; [vm_compute; reflexivity|]. split; [vm_compute; reflexivity|]. discriminate.
Qed.
Print Assumptions C64_nested_refuted.

(** A variant before the one that was written may accept its encoding. *)
Theorem C64_ambiguous_refuted :
  exists p o ts v v' bs r, let M := of_fmt (wire p o) p o in
    unt_enc M ts v = Ok bs /\ unt_dec M ts bs = Ok (v', r) /\ v' <> v.
Proof.
  exists ex_plat, WIRE_OPTIONS, [TU W8; TU W16], (VVar 1 (VN 1)), (VVar 0 (VN 1)). do 2 eexists. cbv zeta.
  split; [vm_compute; reflexivity|]. split; [vm_compute; reflexivity|]. discriminate.
Qed.
Print Assumptions C64_ambiguous_refuted.

(** * C65 *)

(** A variant that the reader does not know is its fallback variant, its contents are passed over,
    and it is an error without a fallback. [vsW], [vsR]: the variants of writer and reader. *)
Theorem C65_fallback_wire_partial :
  forall p o fast kt vsW vsR fb i name t x bs rest,
    wf p (TEnum fast kt vsW) -> packs_ok p o kt -> leaves (wok o) t = true ->
    nth_error vsW i = Some (name, t) -> has_type p t x = true -> ~ In name (map fst vsR) ->
    wire_encode p o (TEnum fast kt vsW) (VVar i x) = Ok bs -> 1 + lenN bs < 2 ^ usize_bits p ->
    fb_dec (wire p o) p o kt vsR fb (bs ++ rest) = Ok (VVar fb (VList []), rest) /\
    wire_decode p o (TEnum fast kt vsR) (bs ++ rest) = Err.
Proof.
  intros p o. exact (fb_unknown (wire p o) p o (wok o) (wskip_n p o) (wire_skip_laws p o) (wire_rt_laws p o)).
Qed.
Print Assumptions C65_fallback_wire_partial.

Theorem C65_fallback_desc :
  forall p o fast kt vsW vsR fb i name t x bs rest,
    wf p (TEnum fast kt vsW) -> packs_ok p o kt ->
    nth_error vsW i = Some (name, t) -> has_type p t x = true -> ~ In name (map fst vsR) ->
    descriptive_encode p o (TEnum fast kt vsW) (VVar i x) = Ok bs -> 1 + lenN bs < 2 ^ usize_bits p ->
    fb_dec (descriptive p o) p o kt vsR fb (bs ++ rest) = Ok (VVar fb (VList []), rest) /\
    descriptive_decode p o (TEnum fast kt vsR) (bs ++ rest) = Err.
Proof.
  intros p o fast kt vsW vsR fb i name t x bs rest Hw Hp.
  exact (fb_unknown (descriptive p o) p o (fun _ => true) (dskip_n p o) (desc_skip_laws p o) (desc_rt_laws p o)
    fast kt vsW vsR fb i name t x bs rest Hw Hp (leaves_all _ _ (fun _ => eq_refl))).
Qed.
Print Assumptions C65_fallback_desc.

(** A fallback changes nothing for the variants that the reader knows. *)
Theorem C65_known :
  forall p o fast kt vs fb v bs rest,
    wf p (TEnum fast kt vs) -> packs_ok p o (TEnum fast kt vs) -> has_type p (TEnum fast kt vs) v = true ->
    (wire_encode p o (TEnum fast kt vs) v = Ok bs -> fb_dec (wire p o) p o kt vs fb (bs ++ rest) = Ok (v, rest)) /\
    (descriptive_encode p o (TEnum fast kt vs) v = Ok bs ->
     fb_dec (descriptive p o) p o kt vs fb (bs ++ rest) = Ok (v, rest)).
Proof.
  intros p o fast kt vs fb v bs rest Hw Hp Hv. split; intros He.
  - exact (fb_known (wire p o) p o (wire_rt_laws p o) fast kt vs fb v bs rest Hw Hp Hv He).
  - exact (fb_known (descriptive p o) p o (desc_rt_laws p o) fast kt vs fb v bs rest Hw Hp Hv He).
Qed.
Print Assumptions C65_known.

(** An enum without fields, in every format: an unknown name is the fallback, a known one itself. *)
Theorem C65_fieldless :
  forall p o kt tags fb k bs rest, wf p kt -> has_type p kt k = true ->
    let good M := m_enc M kt k = Ok bs ->
      fb_tag_dec M kt tags fb (bs ++ rest) =
        Ok (VVar match find_name k tags with Some i => i | None => fb end VUnit, rest) in
    (packs_ok p o kt -> good (of_fmt (wire p o) p o) /\ good (of_fmt (descriptive p o) p o)) /\
    (posok false false false kt = true -> is_native_fixed p o = false -> good (of_storage p o)).
Proof.
  intros p o kt tags fb k bs rest Hw Hk good.
  assert (H : forall M, rt false (has_type p kt) (m_enc M kt) (m_dec M kt) -> good M).
  { intros M HR He. unfold fb_tag_dec. rewrite (HR k bs rest Hk ltac:(discriminate) He). cbn [bind].
    destruct (find_name k tags); reflexivity. }
  split; [intros Hp; split; apply H|intros Hp Hn; apply H].
  - exact (g_roundtrip (wire p o) p o kt (wire_rt_laws p o) Hw Hp).
  - exact (g_roundtrip (descriptive p o) p o kt (desc_rt_laws p o) Hw Hp).
  - intros y b r Hy _ E. exact (C09_storage_roundtrip p o kt y b r Hn Hw Hp Hy E).
Qed.
Print Assumptions C65_fieldless.

Example C65_nonvacuous :
  wf ex_plat (plain ex_enum) /\ packs_ok ex_plat WIRE_OPTIONS TStr /\ packs_ok ex_plat WIRE_OPTIONS (plain ex_enum) /\
  leaves (wok WIRE_OPTIONS) (TStruct TStr [(ex_key [110] None, TStr); (ex_key [108] (Some (VList [])), TVec (TI W32))]) = true /\
  has_type ex_plat (plain ex_enum) ex_enum_val = true /\ ~ In (VBytes [97]) (map fst [(VBytes [98], TU W8); (VBytes [102], TUnit)]) /\
  exists bs, wire_encode ex_plat WIRE_OPTIONS (plain ex_enum) ex_enum_val = Ok bs /\
    fb_dec (wire ex_plat WIRE_OPTIONS) ex_plat WIRE_OPTIONS TStr [(VBytes [98], TU W8); (VBytes [102], TUnit)] 1 (bs ++ [5])
      = Ok (VVar 1 (VList []), [5]).
Proof.
  split; [exact (proj1 ex_enum_wf)|]. do 2 (split; [split; [reflexivity|vm_compute; discriminate]|]).
  split; [reflexivity|]. split; [reflexivity|]. split; [intros [E|[E|[]]]; discriminate E|].
  eexists. split; [vm_compute; reflexivity|vm_compute; reflexivity].
Qed.
