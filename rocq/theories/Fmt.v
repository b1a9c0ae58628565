(** The part of [Encode]/[Decode] that is the same for the wire and the descriptive formats:
    the implementations of crates/musli-core/src/impls and the code generated by
    crates/musli-macros are generic over the [Encoder]/[Decoder] traits
    (musli-core/src/en/encoder.rs, musli-core/src/de/decoder.rs). The record [fmt] holds
    the trait methods that these implementations call; [Wire.v] and [Desc.v] provide the
    two instances. Neither format has a native-memory fast path of its own (the provided methods
    [try_fast_encode] and [try_fast_decode] answer [Unsupported]), but the contents
    of packed structs are written with the storage encoder, which has one. *)
From Verif Require Import Base Options Int Utf8 Types Storage.
Local Open Scope N_scope.

Record fmt := {
  (** encode_empty, encode_bool .. encode_isize, encode_string, encode_bytes, encode_array *)
  f_leaf_enc : ty -> val -> res bytes;
  f_leaf_dec : ty -> dec val;
  (** encode_sequence with its exact hint; the length read by decode_sequence *)
  f_seq_enc : N -> res bytes;
  f_seq_dec : dec N;
  (** encode_map with its exact hint; the number of entries found by decode_map *)
  f_map_enc : N -> res bytes;
  f_map_dec : dec N;
  (** encode_none, encode_some, decode_option *)
  f_none : bytes;
  f_some : bytes;
  f_opt_dec : dec bool;
  (** encode_variant, decode_variant *)
  f_var : bytes;
  f_var_dec : dec unit;
  (** what finish_sequence of the pack encoder writes in front of the packed bytes, and the
      length that decode_pack reads *)
  f_pack_enc : N -> res bytes;
  f_pack_dec : dec N;
  (** skip *)
  f_skip : dec unit;
  (** what decode_sequence does with the given number of elements that its callback left *)
  f_skip_rest : N -> dec unit
}.

(** The bytes of a packed struct: every field with the storage encoder and PACK = true,
    wire/en.rs:336-370, descriptive/en.rs:326-357, musli-macros/src/en.rs:207-218, 347-356 *)
Definition pack_body (p : plat) (o : N) (fs : list (option val * ty)) (vs : list val) : res bytes :=
  enc_list (map (fun ft => enc p o true (snd ft)) fs) vs.

(** [T::encode] *)
Fixpoint genc (F : fmt) (p : plat) (o : N) (t : ty) {struct t} : val -> res bytes :=
  let seq (e : val -> res bytes) (v : val) :=
    match v with
    | VList vs =>
        let* l := f_seq_enc F (lenN vs) in
        let* b := concat_res e vs in
        Ok (l ++ b)
    | _ => Err
    end in
  match t with
  (* impls/mod.rs:660-668 *)
  | TOpt t' =>
      fun v => match v with
               | VNone => Ok (f_none F)
               | VSome x => let* b := genc F p o t' x in Ok (f_some F ++ b)
               | _ => Err end
  | TBox t' => genc F p o t'
  (* encode_slice: en/utils.rs:7-24; impls/alloc.rs:290-310 *)
  | TVec t' | TArray _ t' | TSet t' => seq (genc F p o t')
  (* impls/tuples.rs:54-64 *)
  | TTup ts =>
      let es := map (genc F p o) ts in
      fun v => match v with
               | VList vs =>
                   let* l := f_seq_enc F (lenN ts) in
                   let* b := enc_list es vs in
                   Ok (l ++ b)
               | _ => Err end
  (* impls/alloc.rs:492-506 *)
  | TMap tk tv =>
      fun v => match v with
               | VMap kvs =>
                   let* l := f_map_enc F (lenN kvs) in
                   let* b := concat_res (fun kv => let* a := genc F p o tk (fst kv) in
                                                   let* b := genc F p o tv (snd kv) in
                                                   Ok (a ++ b)) kvs in
                   Ok (l ++ b)
               | _ => Err end
  (* The packed bytes are collected in a buffer first. A buffer that does not fit the
     address space cannot be built: growing it is an allocation error. *)
  | TPack _ fs =>
      fun v => match v with
               | VList vs =>
                   let* b := pack_body p o fs vs in
                   if lenN b <? 2 ^ usize_bits p then
                     let* l := f_pack_enc F (lenN b) in Ok (l ++ b)
                   else Err
               | _ => Err end
  (* musli-macros/src/en.rs:219-233, 357-371 *)
  | TStruct kt fs =>
      let ek := genc F p o kt in
      let es := map (fun ft => (fst ft, genc F p o (snd ft))) fs in
      fun v => match v with
               | VList vs =>
                   let* l := f_map_enc F (count_fields (map fst fs) vs) in
                   let* b := enc_fields ek es vs in
                   Ok (l ++ b)
               | _ => Err end
  (* musli-macros/src/en.rs:511-537 *)
  | TTag kt tags =>
      fun v => match v with
               | VVar i VUnit =>
                   match nth_error tags i with Some k => genc F p o kt k | None => Err end
               | _ => Err end
  (* musli-macros/src/en.rs:539-582; impls/mod.rs:700-723 *)
  | TEnum _ kt vs =>
      let es := map (fun tv => (fst tv, genc F p o (snd tv))) vs in
      fun v => match v with
               | VVar i x =>
                   match nth_error es i with
                   | Some (k, e) =>
                       let* a := genc F p o kt k in
                       let* b := e x in
                       Ok (f_var F ++ a ++ b)
                   | None => Err
                   end
               | _ => Err end
  | _ => f_leaf_enc F t
  end.

(** decode_pack, wire/de.rs:265-275, descriptive/de.rs:282-292: the body reads through a
    [Limit] of [n] bytes, and [end] skips what it left. If the input is shorter than the
    limit, the body sees all of it and the final skip fails. *)
Definition limited (n : N) (body : dec (list val)) : dec val :=
  fun bs =>
    match take_opt n bs with
    | Some (h, r) => let* (vs, _) := body h in Ok (VList vs, r)
    | None => let* (_, _) := body bs in Err
    end.

(** [T::decode] *)
Fixpoint gdec (F : fmt) (p : plat) (o : N) (t : ty) {struct t} : dec val :=
  match t with
  (* impls/mod.rs:684-692 *)
  | TOpt t' =>
      fun bs =>
        let* (some, r) := f_opt_dec F bs in
        if some : bool then let* (v, r') := gdec F p o t' r in Ok (VSome v, r') else Ok (VNone, r)
  | TBox t' => gdec F p o t'
  (* default_decode_slice, de/utils.rs:5-32 *)
  | TVec t' =>
      fun bs =>
        let* (n, r) := f_seq_dec F bs in
        let* (vs, r') := dec_count n (gdec F p o t') r in
        Ok (VList vs, r')
  (* impls/mod.rs:244-269: element [n + 1] is decoded before [try_push] rejects it *)
  | TArray n t' =>
      fun bs =>
        let* (m, r) := f_seq_dec F bs in
        let* (vs, r') := dec_count (N.min m (n + 1)) (gdec F p o t') r in
        if m =? n then Ok (VList vs, r') else Err
  (* impls/alloc.rs:330-345 *)
  | TSet t' =>
      fun bs =>
        let* (n, r) := f_seq_dec F bs in
        let* (vs, r') := iterN n (fun s => let* (v, r) := gdec F p o t' (snd s) in
                                           Ok (set_insert v (fst s), r)) ([], r) in
        Ok (VList vs, r')
  (* impls/tuples.rs:85-96: [next] fails when none remain; what remains is skipped *)
  | TTup ts =>
      let ds := map (gdec F p o) ts in
      fun bs =>
        let* (m, r) := f_seq_dec F bs in
        if m <? lenN ts then
          let* (_, _) := dec_list (firstn (N.to_nat m) ds) r in Err
        else
          let* (vs, r') := dec_list ds r in
          let* (_, r'') := f_skip_rest F (m - lenN ts) r' in
          Ok (VList vs, r'')
  (* impls/alloc.rs:556-569 *)
  | TMap tk tv =>
      fun bs =>
        let* (n, r) := f_map_dec F bs in
        let* (kvs, r') := iterN n (fun s => let* (k, r) := gdec F p o tk (snd s) in
                                            let* (v, r') := gdec F p o tv r in
                                            Ok (map_insert k v (fst s), r')) ([], r) in
        Ok (VMap kvs, r')
  (* musli-macros/src/de.rs:1426-1510; the fields are read with the storage decoder, PACK = true *)
  | TPack _ fs =>
      let ds := map (fun ft => pack_field (fst ft) (dec_ p o true (snd ft))) fs in
      fun bs =>
        let* (n, r) := f_pack_dec F bs in
        limited n (dec_list ds) r
  (* musli-macros/src/de.rs:1083-1368. Without fields (de.rs:1033-1076) the entries are
     skipped without looking at the names *)
  | TStruct kt fs =>
      let dk := match fs with
                | [] => fun bs => let* (_, r) := f_skip F bs in Ok (VUnit, r)
                | _ => gdec F p o kt
                end in
      let ds := map (fun ft => gdec F p o (snd ft)) fs in
      let names := map (fun ft => fname (fst ft)) fs in
      fun bs =>
        let* (n, r) := f_map_dec F bs in
        let* (s, r') := iterN n (dec_field dk names ds (f_skip F)) (map (fun _ => None) fs, r) in
        let* vs := fill (map fst fs) s in
        Ok (VList vs, r')
  (* musli-macros/src/de.rs:210-271 *)
  | TTag kt tags =>
      fun bs =>
        let* (k, r) := gdec F p o kt bs in
        match find_name k tags with Some i => Ok (VVar i VUnit, r) | None => Err end
  (* musli-macros/src/de.rs decode_enum; impls/mod.rs:725-757 *)
  | TEnum _ kt vs =>
      let ds := map (fun tv => gdec F p o (snd tv)) vs in
      fun bs =>
        let* (_, r0) := f_var_dec F bs in
        let* (k, r) := gdec F p o kt r0 in
        match find_name k (map fst vs) with
        | Some i =>
            match nth_error ds i with
            | Some d => let* (v, r') := d r in Ok (VVar i v, r')
            | None => Err
            end
        | None => Err
        end
  | _ => f_leaf_dec F t
  end.
