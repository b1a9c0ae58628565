(** Model of crates/musli/src/storage (and crates/musli/src/packed, which is the same
    encoder and decoder with PACK = true): en.rs, de.rs, together with the
    implementations of [Encode] and [Decode] of crates/musli-core/src/impls. *)
From Verif Require Import Base Options Int Utf8 Types.
Local Open Scope N_scope.

(** ** The native-memory fast path *)

(** [Encode::IS_BITWISE_ENCODE]. Derived structs: musli-macros/src/internals/packed.rs:8-69;
    the others as cited in [Types.ty]. *)
Fixpoint bw_enc (t : ty) : bool :=
  match t with
  | TUnit | TBool | TChar | TU _ | TI _ | TUsize | TIsize | TF32 | TF64 | TNonZero _ => true
  | TArray _ t => bw_enc t
  | TPack contig fs => contig && forallb (fun ft => bw_enc (snd ft)) fs
  | _ => false
  end.

(** [Decode::IS_BITWISE_DECODE] *)
Fixpoint bw_dec (t : ty) : bool :=
  match t with
  | TUnit | TU _ | TI _ | TUsize | TIsize | TF32 | TF64 => true
  | TArray _ t => bw_dec t
  | TPack contig fs => contig && forallb (fun ft => bw_dec (snd ft)) fs
  | _ => false
  end.

(** [<T as Encode>::Encode::IS_BITWISE_ENCODE], the test of
    [StorageEncoder::try_fast_encode], storage/en.rs:70-90: for smart pointers the
    type tested is the one pointed to. *)
Definition bw_as (t : ty) : bool :=
  match t with TBox t' => bw_enc t' | _ => bw_enc t end.

(** Number of bytes of a usize. *)
Definition usize_bytes (p : plat) : nat :=
  match ptr p with P16 => 2%nat | P32 => 4%nat | P64 => 8%nat end.

(** Memory of consecutive fields. *)
Fixpoint raw_list (rs : list (val -> bytes)) (vs : list val) : bytes :=
  match rs, vs with
  | r :: rs', v :: vs' => r v ++ raw_list rs' vs'
  | _, _ => []
  end.

(** The memory of a value of a type with [bw_enc]: native byte order, no padding. *)
Fixpoint raw (p : plat) (t : ty) {struct t} : val -> bytes :=
  match t with
  | TBool => fun v => match v with VBool b => [if b then 1 else 0] | _ => [] end
  | TChar => fun v => match v with VN n => to_ne p 4 n | _ => [] end
  | TU w | TNonZero w => fun v => match v with VN n => to_ne p (nbytes w) n | _ => [] end
  | TI w => fun v => match v with VZ z => to_ne p (nbytes w) (to_u (bits w) z) | _ => [] end
  | TUsize => fun v => match v with VN n => to_ne p (usize_bytes p) n | _ => [] end
  | TIsize =>
      fun v => match v with VZ z => to_ne p (usize_bytes p) (to_u (usize_bits p) z) | _ => [] end
  | TF32 => fun v => match v with VN n => to_ne p 4 n | _ => [] end
  | TF64 => fun v => match v with VN n => to_ne p 8 n | _ => [] end
  | TBox t => raw p t
  | TArray _ t => fun v => match v with VList vs => concat (map (raw p t) vs) | _ => [] end
  | TPack _ fs =>
      fun v => match v with
               | VList vs => raw_list (map (fun ft => raw p (snd ft)) fs) vs
               | _ => []
               end
  | _ => fun _ => []
  end.

(** Read [size_of::<T>()] bytes and reinterpret them, storage/de.rs:84-106. The model
    reads the components one after the other instead of all at once, which
    succeeds on the same inputs with the same result. *)
Fixpoint raw_dec (p : plat) (t : ty) {struct t} : dec val :=
  let num (n : nat) (f : N -> val) : dec val :=
    fun bs => let* (h, r) := read_bytes (N.of_nat n) bs in Ok (f (of_ne p h), r) in
  match t with
  | TUnit => fun bs => Ok (VUnit, bs)
  | TU w => num (nbytes w) VN
  | TI w => num (nbytes w) (fun n => VZ (to_s (bits w) n))
  | TUsize => num (usize_bytes p) VN
  | TIsize => num (usize_bytes p) (fun n => VZ (to_s (usize_bits p) n))
  | TF32 => num 4%nat VN
  | TF64 => num 8%nat VN
  | TArray n t =>
      fun bs => let* (vs, r) := dec_count n (raw_dec p t) bs in Ok (VList vs, r)
  | TPack _ fs =>
      fun bs => let* (vs, r) := dec_list (map (fun ft => raw_dec p (snd ft)) fs) bs in
                Ok (VList vs, r)
  | _ => fun _ => Err
  end.

(** [Encoder::encode], musli-core/src/en/encoder.rs:84-92: the fast path if the
    options and the type allow it, otherwise [T::encode], here [e]. *)
Definition sel_enc (p : plat) (o : N) (t : ty) (e : val -> res bytes) : val -> res bytes :=
  if is_native_fixed p o && bw_as t then fun v => Ok (raw p t v) else e.

(** [Decoder::decode], musli-core/src/de/decoder.rs:175-183 *)
Definition sel_dec (p : plat) (o : N) (t : ty) (d : dec val) : dec val :=
  if is_native_fixed p o && bw_dec t then raw_dec p t else d.

(** ** Encoding *)

(** [T::encode] with a [StorageEncoder<OPT, PACK, ..>], storage/en.rs:41-330.
    [pk] is PACK. *)
Fixpoint enc (p : plat) (o : N) (pk : bool) (t : ty) {struct t} : val -> res bytes :=
  let nf := is_native_fixed p o in
  match t with
  (* encode_empty, storage/en.rs:93-95 *)
  | TUnit => fun v => match v with VUnit => encode_usize p o 0 | _ => Err end
  (* encode_bool, storage/en.rs:139-141 *)
  | TBool => fun v => match v with VBool b => Ok [if b then 1 else 0] | _ => Err end
  (* encode_char, storage/en.rs:144-146 *)
  | TChar => fun v => match v with VN c => Ok (encode_unsigned p o W32 c) | _ => Err end
  (* encode_u8 .. encode_u128, storage/en.rs:149-171 *)
  | TU W8 => fun v => match v with VN n => Ok [n] | _ => Err end
  | TU w => fun v => match v with VN n => Ok (encode_unsigned p o w n) | _ => Err end
  (* encode_i8 .. encode_i128, storage/en.rs:174-196 *)
  | TI W8 => fun v => match v with VZ z => Ok [to_u 8 z] | _ => Err end
  | TI w => fun v => match v with VZ z => Ok (encode_signed p o w z) | _ => Err end
  (* encode_usize, encode_isize, storage/en.rs:209-216 *)
  | TUsize => fun v => match v with VN n => encode_usize p o n | _ => Err end
  | TIsize => fun v => match v with VZ z => encode_usize p o (to_u (usize_bits p) z) | _ => Err end
  (* encode_f32, encode_f64, storage/en.rs:199-206 *)
  | TF32 => fun v => match v with VN n => Ok (encode_unsigned p o W32 n) | _ => Err end
  | TF64 => fun v => match v with VN n => Ok (encode_unsigned p o W64 n) | _ => Err end
  (* non_zero!, impls/mod.rs:141-146 *)
  | TNonZero W8 => fun v => match v with VN n => Ok [n] | _ => Err end
  | TNonZero w => fun v => match v with VN n => Ok (encode_unsigned p o w n) | _ => Err end
  (* encode_string, encode_bytes, storage/en.rs:111-136 *)
  | TStr | TBytes =>
      fun v => match v with
               | VBytes bs => let* l := encode_usize p o (lenN bs) in Ok (l ++ bs)
               | _ => Err end
  (* encode_array, storage/en.rs:106-108 *)
  | TArr _ => fun v => match v with VBytes bs => Ok bs | _ => Err end
  (* encode_some, encode_none, storage/en.rs:219-234; impls/mod.rs:660-668 *)
  | TOpt t' =>
      let e := sel_enc p o t' (enc p o pk t') in
      fun v => match v with
               | VNone => Ok (if pk then [] else [0])
               | VSome x => let* b := e x in Ok (if pk then b else 1 :: b)
               | _ => Err end
  (* impls/alloc.rs:694-699 *)
  | TBox t' => enc p o pk t'
  (* encode_slice, storage/en.rs:237-250, 455-490; en/utils.rs:7-24 *)
  | TVec t' =>
      let e := sel_enc p o t' (enc p o pk t') in
      fun v => match v with
               | VList vs =>
                   if nf && bw_enc t' then
                     Ok (to_ne p (usize_bytes p) (lenN vs) ++ concat (map (raw p t') vs))
                   else
                     let* l := encode_usize p o (lenN vs) in
                     let* b := concat_res e vs in
                     Ok (l ++ b)
               | _ => Err end
  (* impls/mod.rs:222-227, encode_slice *)
  | TArray _ t' =>
      let e := sel_enc p o t' (enc p o pk t') in
      fun v => match v with
               | VList vs =>
                   if nf && bw_enc t' then
                     Ok (to_ne p (usize_bytes p) (lenN vs) ++ concat (map (raw p t') vs))
                   else
                     let* l := encode_usize p o (lenN vs) in
                     let* b := concat_res e vs in
                     Ok (l ++ b)
               | _ => Err end
  (* encode_sequence, push, impls/alloc.rs:290-310 *)
  | TSet t' =>
      let e := sel_enc p o t' (enc p o pk t') in
      fun v => match v with
               | VList vs =>
                   let* l := encode_usize p o (lenN vs) in
                   let* b := concat_res e vs in
                   Ok (l ++ b)
               | _ => Err end
  (* impls/tuples.rs:54-64 *)
  | TTup ts =>
      let es := map (fun t' => sel_enc p o t' (enc p o pk t')) ts in
      fun v => match v with
               | VList vs =>
                   let* l := encode_usize p o (lenN ts) in
                   let* b := enc_list es vs in
                   Ok (l ++ b)
               | _ => Err end
  (* impls/alloc.rs:492-506 *)
  | TMap tk tv =>
      let ek := sel_enc p o tk (enc p o pk tk) in
      let ev := sel_enc p o tv (enc p o pk tv) in
      fun v => match v with
               | VMap kvs =>
                   let* l := encode_usize p o (lenN kvs) in
                   let* b := concat_res (fun kv => let* a := ek (fst kv) in
                                                   let* b := ev (snd kv) in Ok (a ++ b)) kvs in
                   Ok (l ++ b)
               | _ => Err end
  (* encode_pack, storage/en.rs:98-103; musli-macros/src/en.rs:207-218, 347-356 *)
  | TPack contig fs =>
      let es := map (fun ft => enc p o true (snd ft)) fs in
      fun v =>
        if nf && bw_enc (TPack contig fs) then Ok (raw p (TPack contig fs) v)
        else match v with VList vs => enc_list es vs | _ => Err end
  (* encode_map, storage/en.rs:285-289; musli-macros/src/en.rs:219-233, 357-371 *)
  | TStruct kt fs =>
      let ek := enc p o pk kt in
      let es := map (fun ft => (fst ft, enc p o pk (snd ft))) fs in
      fun v => match v with
               | VList vs =>
                   let* l := encode_usize p o (count_fields (map fst fs) vs) in
                   let* b := enc_fields ek es vs in
                   Ok (l ++ b)
               | _ => Err end
  (* musli-macros/src/en.rs:511-537, encode_empty_variant *)
  | TTag kt tags =>
      let ek := enc p o pk kt in
      fun v => match v with
               | VVar i VUnit => match nth_error tags i with Some k => ek k | None => Err end
               | _ => Err end
  (* encode_variant, storage/en.rs:301-303; musli-macros/src/en.rs:539-582 *)
  | TEnum fast kt vs =>
      let ek := if fast then sel_enc p o kt (enc p o pk kt) else enc p o pk kt in
      let es := map (fun tv => (fst tv,
                  if fast then sel_enc p o (snd tv) (enc p o pk (snd tv))
                  else enc p o pk (snd tv))) vs in
      fun v => match v with
               | VVar i x =>
                   match nth_error es i with
                   | Some (k, e) =>
                       let* a := ek k in let* b := e x in Ok (a ++ b)
                   | None => Err
                   end
               | _ => Err end
  end.

(** [encoder.encode(value)] *)
Definition enc_fast (p : plat) (o : N) (pk : bool) (t : ty) : val -> res bytes :=
  sel_enc p o t (enc p o pk t).

(** ** Decoding *)

(** decode_sequence / decode_map with the [remaining] counter, storage/de.rs:373-425:
    the callers below take elements until none remain, so the final check
    [remaining != 0] never fails for them. *)
Definition dec_seq (p : plat) (o : N) (d : dec val) : dec (list val) :=
  fun bs => let* (n, r) := decode_usize p o bs in dec_count n d r.

(** A field of a packed struct, musli-macros/src/de.rs:1447-1485. The branch for a
    field with a default (de.rs:1455-1468) is never generated: it asks
    [Field::init_default], which is [None] unless the field is
    [#[musli(skip)]] (internals/build.rs:337-352), and the loop is over the fields that are
    not (internals/build.rs:155-158). So [#[musli(default)]] has no effect on a
    packed field, although the macro insists that such fields come last
    (internals/build.rs:196-211). *)
Definition pack_field (def : option val) (d : dec val) : dec val := d.

(** Storage cannot skip: [Decoder::skip] is not implemented. *)
Definition no_skip : dec unit := fun _ => Err.

(** [T::decode] with a [StorageDecoder<OPT, PACK, ..>], storage/de.rs:50-440. *)
Fixpoint dec_ (p : plat) (o : N) (pk : bool) (t : ty) {struct t} : dec val :=
  let nf := is_native_fixed p o in
  let num (d : dec N) : dec val := fun bs => let* (n, r) := d bs in Ok (VN n, r) in
  match t with
  (* decode_empty, storage/de.rs:109-120 *)
  | TUnit => fun bs => let* (n, r) := decode_usize p o bs in
                       if n =? 0 then Ok (VUnit, r) else Err
  (* decode_bool, storage/de.rs:184-193 *)
  | TBool => fun bs => let* (b, r) := read_byte bs in
                       match b with 0 => Ok (VBool false, r) | 1 => Ok (VBool true, r)
                                  | _ => Err end
  (* decode_char, storage/de.rs:196-205 *)
  | TChar => fun bs => let* (n, r) := decode_unsigned p o W32 bs in
                       if char_valid n then Ok (VN n, r) else Err
  (* decode_u8 .. decode_u128, storage/de.rs:208-230 *)
  | TU W8 => num read_byte
  | TU w => num (decode_unsigned p o w)
  (* decode_i8 .. decode_i128, storage/de.rs:233-255 *)
  | TI W8 => fun bs => let* (b, r) := read_byte bs in Ok (VZ (to_s 8 b), r)
  | TI w => fun bs => let* (z, r) := decode_signed p o w bs in Ok (VZ z, r)
  (* storage/de.rs:274-281 *)
  | TUsize => num (decode_usize p o)
  | TIsize => fun bs => let* (n, r) := decode_usize p o bs in Ok (VZ (to_s (usize_bits p) n), r)
  (* storage/de.rs:260-271 *)
  | TF32 => num (decode_unsigned p o W32)
  | TF64 => num (decode_unsigned p o W64)
  (* impls/mod.rs:162-176: the inner value goes through [Decoder::decode] *)
  | TNonZero w =>
      let d := if nf then (fun bs => let* (h, r) := read_bytes (N.of_nat (nbytes w)) bs in
                                     Ok (of_ne p h, r))
               else match w with W8 => read_byte | _ => decode_unsigned p o w end in
      fun bs => let* (n, r) := d bs in if n =? 0 then Err else Ok (VN n, r)
  (* decode_string, decode_bytes, storage/de.rs:137-181 *)
  | TStr => fun bs => let* (n, r) := decode_usize p o bs in
                      let* (h, r') := read_bytes n r in
                      if utf8_valid h then Ok (VBytes h, r') else Err
  | TBytes => fun bs => let* (n, r) := decode_usize p o bs in
                        let* (h, r') := read_bytes n r in
                        Ok (VBytes h, r')
  (* decode_array, storage/de.rs:132-134 *)
  | TArr n => fun bs => let* (h, r) := read_bytes n bs in Ok (VBytes h, r)
  (* decode_option, storage/de.rs:284-296; impls/mod.rs:684-692 *)
  | TOpt t' =>
      let d := sel_dec p o t' (dec_ p o pk t') in
      fun bs =>
        if pk then
          match bs with
          | [] => Ok (VNone, bs)
          | _ => let* (v, r) := d bs in Ok (VSome v, r)
          end
        else
          let* (b, r) := read_byte bs in
          if b =? 1 then let* (v, r') := d r in Ok (VSome v, r') else Ok (VNone, r)
  (* impls/alloc.rs:716-721 *)
  | TBox t' => sel_dec p o t' (dec_ p o pk t')
  (* decode_slice, storage/de.rs:299-370; de/utils.rs:5-32. The elements are read in
     chunks; reading them one at a time succeeds on the same inputs. *)
  | TVec t' =>
      if nf && bw_dec t' then
        fun bs =>
          let* (h, r) := read_bytes (N.of_nat (usize_bytes p)) bs in
          let* (vs, r') := dec_count (of_ne p h) (raw_dec p t') r in
          Ok (VList vs, r')
      else
        fun bs => let* (vs, r) := dec_seq p o (dec_ p o pk t') bs in Ok (VList vs, r)
  (* impls/mod.rs:244-269: [try_push] fails on element N + 1, and fewer than N
     is an error at the end *)
  | TArray n t' =>
      let d := sel_dec p o t' (dec_ p o pk t') in
      fun bs =>
        let* (m, r) := decode_usize p o bs in
        let* (vs, r') := dec_count (N.min m n) d r in
        if m =? n then Ok (VList vs, r') else Err
  (* impls/alloc.rs:330-345 *)
  | TSet t' =>
      let d := sel_dec p o t' (dec_ p o pk t') in
      fun bs =>
        let* (n, r) := decode_usize p o bs in
        let* (vs, r') :=
          iterN n (fun s => let* (v, r) := d (snd s) in Ok (set_insert v (fst s), r)) ([], r) in
        Ok (VList vs, r')
  (* impls/tuples.rs:85-96: [next] fails when none remain, and the final check fails
     when some remain *)
  | TTup ts =>
      let ds := map (fun t' => sel_dec p o t' (dec_ p o pk t')) ts in
      fun bs =>
        let* (m, r) := decode_usize p o bs in
        let* (vs, r') := dec_list (firstn (N.to_nat (N.min m (lenN ts))) ds) r in
        if m =? lenN ts then Ok (VList vs, r') else Err
  (* impls/alloc.rs:556-569 *)
  | TMap tk tv =>
      let dk := sel_dec p o tk (dec_ p o pk tk) in
      let dv := sel_dec p o tv (dec_ p o pk tv) in
      fun bs =>
        let* (n, r) := decode_usize p o bs in
        let* (kvs, r') :=
          iterN n (fun s => let* (k, r) := dk (snd s) in
                            let* (v, r') := dv r in
                            Ok (map_insert k v (fst s), r')) ([], r) in
        Ok (VMap kvs, r')
  (* decode_pack, storage/de.rs:123-129; musli-macros/src/de.rs:155-165, 1426-1510 *)
  | TPack contig fs =>
      if nf && bw_dec (TPack contig fs) then raw_dec p (TPack contig fs)
      else
        let ds := map (fun ft => pack_field (fst ft) (dec_ p o true (snd ft))) fs in
        fun bs => let* (vs, r) := dec_list ds bs in Ok (VList vs, r)
  (* musli-macros/src/de.rs:1083-1368 *)
  | TStruct kt fs =>
      let dk := dec_ p o pk kt in
      let ds := map (fun ft => dec_ p o pk (snd ft)) fs in
      let names := map (fun ft => fname (fst ft)) fs in
      fun bs =>
        let* (n, r) := decode_usize p o bs in
        let* (s, r') := iterN n (dec_field dk names ds no_skip) (map (fun _ => None) fs, r) in
        let* vs := fill (map fst fs) s in
        Ok (VList vs, r')
  (* musli-macros/src/de.rs decode_enum, empty tagging *)
  | TTag kt tags =>
      fun bs =>
        let* (k, r) := dec_ p o pk kt bs in
        match find_name k tags with Some i => Ok (VVar i VUnit, r) | None => Err end
  (* decode_variant, storage/de.rs:428-433; musli-macros/src/de.rs decode_enum *)
  | TEnum fast kt vs =>
      let dk := if fast then sel_dec p o kt (dec_ p o pk kt) else dec_ p o pk kt in
      let ds := map (fun tv => if fast then sel_dec p o (snd tv) (dec_ p o pk (snd tv))
                               else dec_ p o pk (snd tv)) vs in
      fun bs =>
        let* (k, r) := dk bs in
        match find_name k (map fst vs) with
        | Some i =>
            match nth_error ds i with
            | Some d => let* (v, r') := d r in Ok (VVar i v, r')
            | None => Err
            end
        | None => Err
        end
  end.

(** [decoder.decode()] *)
Definition dec_fast (p : plat) (o : N) (pk : bool) (t : ty) : dec val :=
  sel_dec p o t (dec_ p o pk t).

(** ** The API *)

(** storage::encode and friends: [value.encode(StorageEncoder::<OPT, false, ..>)],
    crates/musli/src/macros/internal.rs:800-905 *)
Definition storage_encode (p : plat) (o : N) (t : ty) (v : val) : res bytes := enc p o false t v.

(** storage::decode: [T::decode(StorageDecoder::<OPT, false, ..>)],
    crates/musli/src/macros/internal.rs:905-960 *)
Definition storage_decode (p : plat) (o : N) (t : ty) : dec val := dec_ p o false t.

(** packed::encode / packed::decode: PACK = true, crates/musli/src/packed/encoding.rs *)
Definition packed_encode (p : plat) (o : N) (t : ty) (v : val) : res bytes := enc p o true t v.
Definition packed_decode (p : plat) (o : N) (t : ty) : dec val := dec_ p o true t.

(** storage/encoding.rs:23 *)
Definition STORAGE_OPTIONS : N := opt_new.
(** packed/encoding.rs:15: [options::new().fixed().native_byte_order().build()] *)
Definition PACKED_OPTIONS (p : plat) : N := build p [CFixed; CNativeByteOrder].
