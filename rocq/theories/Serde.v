(** Model of crates/musli/src/serde: types that implement serde's [Serialize] and
    [Deserialize] and are used with [#[musli(with = musli::serde)]], [musli::serde::encode] and
    [musli::serde::decode].

    serde itself is not part of the repository. What is modelled of it is the documented
    behaviour of the implementations for std types and of the code that
    [#[derive(Serialize, Deserialize)]] generates: which method of the serializer is called for
    which type, and what the visitors do with the accesses they are given. Not modelled:
    [deserialize_any] (serde types that ask the input for its shape: untagged enums, flattened
    structs, serde_json::Value), sequences of unknown length (an error in the
    binary formats), [i128]-specific visitors, [collect_str]. *)
From Verif Require Import Base Options Int Utf8 Types Storage Fmt Json Dec2flt NumText.
Local Open Scope N_scope.

(** A field of a struct: its name, the value of [#[serde(default)]] if present, the
    [#[serde(skip_serializing_if)]] predicate (constantly false if absent). *)
Record sfield := { sname : bytes; sdefault : option val; sskip : val -> bool }.

(** How a variant is written: with the method for newtype variants, or with the
    method of its own shape (unit, tuple or struct variant). *)
Inductive vkind := Newtype | Own.

Inductive sty :=
| SUnit                          (* (), unit structs *)
| SBool | SChar
| SU (w : iw) | SI (w : iw)      (* usize and isize are u64 and i64 *)
| SF32 | SF64
| SStr                           (* String, &str *)
| SBytes                         (* serde_bytes *)
| SOpt (t : sty)
| SNew (t : sty)                 (* newtype structs, Box *)
| SSeq (t : sty)                 (* Vec, VecDeque *)
| SSet (t : sty)                 (* BTreeSet, HashSet *)
| STup (ts : list sty)           (* tuples, arrays, tuple structs *)
| SMap (k v : sty)               (* BTreeMap, HashMap *)
| SStruct (fs : list (sfield * sty))
| SEnum (vs : list (bytes * (vkind * sty))).

(** What a missing field becomes: [#[serde(default)]], otherwise serde's [missing_field],
    which is [None] for an [Option] and an error for everything else. *)
Definition missing (f : sfield) (t : sty) : option val :=
  match sdefault f with
  | Some d => Some d
  | None => match t with SOpt _ => Some VNone | _ => None end
  end.

(** The Müsli type that the documentation calls compatible (serde/mod.rs:43-88), with
    [#[musli(name_all = "name")]] and [#[musli(default)]] on optional fields. *)
Fixpoint shape (t : sty) : ty :=
  match t with
  | SUnit => TUnit
  | SBool => TBool
  | SChar => TChar
  | SU w => TU w
  | SI w => TI w
  | SF32 => TF32
  | SF64 => TF64
  | SStr => TStr
  | SBytes => TBytes
  | SOpt t => TOpt (shape t)
  | SNew t => TBox (shape t)
  | SSeq t => TVec (shape t)
  | SSet t => TSet (shape t)
  | STup ts => TTup (map shape ts)
  | SMap k v => TMap (shape k) (shape v)
  | SStruct fs =>
      TStruct TStr
        (map (fun ft => ({| fname := VBytes (sname (fst ft)); fdefault := missing (fst ft) (snd ft);
                            fskip := sskip (fst ft) |}, shape (snd ft))) fs)
  | SEnum vs => TEnum false TStr (map (fun tv => (VBytes (fst tv), shape (snd (snd tv)))) vs)
  end.

(** ** Serializing *)

(** [SerializeStruct::serialize_field], serde/ser.rs:431-454; fields for which
    [skip_serializing_if] holds are not passed on. *)
Fixpoint ser_fields (ek : val -> res bytes) (fs : list (sfield * (val -> res bytes)))
    (vs : list val) : res bytes :=
  match fs, vs with
  | [], [] => Ok []
  | (f, e) :: fs', v :: vs' =>
      if sskip f v then ser_fields ek fs' vs'
      else
        let* a := ek (VBytes (sname f)) in
        let* b := e v in
        let* c := ser_fields ek fs' vs' in
        Ok (a ++ b ++ c)
  | _, _ => Err
  end.

(** The length that the derived code passes to [serialize_struct]: the fields that are not
    skipped. *)
Fixpoint ser_count (fs : list sfield) (vs : list val) : N :=
  match fs, vs with
  | f :: fs', v :: vs' => (if sskip f v then 0 else 1) + ser_count fs' vs'
  | _, _ => 0
  end.

(** [value.serialize(Serializer::new(encoder))], serde/ser.rs:23-264, for a binary format. *)
Fixpoint senc (F : fmt) (t : sty) {struct t} : val -> res bytes :=
  match t with
  (* serialize_unit, serialize_unit_struct, serde/ser.rs:133-140 *)
  | SUnit => f_leaf_enc F TUnit
  (* serde/ser.rs:39-116 *)
  | SBool => f_leaf_enc F TBool
  | SChar => f_leaf_enc F TChar
  | SU w => f_leaf_enc F (TU w)
  | SI w => f_leaf_enc F (TI w)
  | SF32 => f_leaf_enc F TF32
  | SF64 => f_leaf_enc F TF64
  | SStr => f_leaf_enc F TStr
  | SBytes => f_leaf_enc F TBytes
  (* serialize_none, serialize_some, serde/ser.rs:119-131 *)
  | SOpt t' =>
      fun v => match v with
               | VNone => Ok (f_none F)
               | VSome x => let* b := senc F t' x in Ok (f_some F ++ b)
               | _ => Err end
  (* serialize_newtype_struct, serde/ser.rs:153-162 *)
  | SNew t' => senc F t'
  (* serialize_seq, serde/ser.rs:182-185, 290-311 *)
  | SSeq t' | SSet t' =>
      fun v => match v with
               | VList vs =>
                   let* l := f_seq_enc F (lenN vs) in
                   let* b := concat_res (senc F t') vs in
                   Ok (l ++ b)
               | _ => Err end
  (* serialize_tuple, serialize_tuple_struct, serde/ser.rs:188-201 *)
  | STup ts =>
      let es := map (senc F) ts in
      fun v => match v with
               | VList vs =>
                   let* l := f_seq_enc F (lenN ts) in
                   let* b := enc_list es vs in
                   Ok (l ++ b)
               | _ => Err end
  (* serialize_map, serde/ser.rs:216-227, 387-418: encode_map_entries announces the length like
     encode_map, storage/en.rs:287-294, wire/en.rs:295-297, descriptive/en.rs:270-277 *)
  | SMap tk tv =>
      fun v => match v with
               | VMap kvs =>
                   let* l := f_map_enc F (lenN kvs) in
                   let* b := concat_res (fun kv => let* a := senc F tk (fst kv) in
                                                   let* b := senc F tv (snd kv) in
                                                   Ok (a ++ b)) kvs in
                   Ok (l ++ b)
               | _ => Err end
  (* serialize_struct, serde/ser.rs:230-237 *)
  | SStruct fs =>
      let es := map (fun ft => (fst ft, senc F (snd ft))) fs in
      fun v => match v with
               | VList vs =>
                   let* l := f_map_enc F (ser_count (map fst fs) vs) in
                   let* b := ser_fields (f_leaf_enc F TStr) es vs in
                   Ok (l ++ b)
               | _ => Err end
  (* serialize_unit_variant, serialize_newtype_variant, serialize_tuple_variant,
     serialize_struct_variant, serde/ser.rs:143-150, 165-179, 204-213, 240-249, 266-277, 467-495.
     encode_sequence_variant and encode_map_variant write the marker of a variant, the tag and the
     length in this order, storage/en.rs:302-331, wire/en.rs:307-334, descriptive/en.rs:298-324. *)
  | SEnum vs =>
      let es := map (fun tv => (fst tv, senc F (snd (snd tv)))) vs in
      fun v => match v with
               | VVar i x =>
                   match nth_error es i with
                   | Some (k, e) =>
                       let* a := f_leaf_enc F TStr (VBytes k) in
                       let* b := e x in
                       Ok (f_var F ++ a ++ b)
                   | None => Err
                   end
               | _ => Err end
  end.

(** ** Deserializing *)

(** One entry of a derived struct: the name goes through [deserialize_identifier]
    (serde/de.rs:330-335), a known field that was seen before is the error
    "duplicate field", the value of an unknown one is ignored
    ([deserialize_ignored_any], serde/de.rs:338-344, is [skip]). *)
Definition de_field (dk : dec val) (names : list val) (ds : list (dec val))
    (skip : dec unit) (s : slots * bytes) : res (slots * bytes) :=
  let* (k, r) := dk (snd s) in
  match find_name k names with
  | Some i =>
      match nth_error ds i, nth_error (fst s) i with
      | Some d, Some None => let* (v, r') := d r in Ok (set_slot i v (fst s), r')
      | _, _ => Err
      end
  | None => let* (_, r') := skip r in Ok (fst s, r')
  end.

(** The end of a derived struct: [missing_field] for what was not seen (generated by serde). *)
Fixpoint de_fill (fs : list (option val)) (s : slots) : res (list val) :=
  match fs, s with
  | [], [] => Ok []
  | d :: fs', x :: s' =>
      let* v := match x, d with Some v, _ => Ok v | None, Some v => Ok v | None, None => Err end in
      let* vs := de_fill fs' s' in
      Ok (v :: vs)
  | _, _ => Err
  end.

(** [T::deserialize(Deserializer::new(decoder))], serde/de.rs:28-350, for a binary format. *)
Fixpoint sdec (F : fmt) (t : sty) {struct t} : dec val :=
  match t with
  | SUnit => f_leaf_dec F TUnit
  | SBool => f_leaf_dec F TBool
  | SChar => f_leaf_dec F TChar
  | SU w => f_leaf_dec F (TU w)
  | SI w => f_leaf_dec F (TI w)
  | SF32 => f_leaf_dec F TF32
  | SF64 => f_leaf_dec F TF64
  | SStr => f_leaf_dec F TStr
  | SBytes => f_leaf_dec F TBytes
  (* deserialize_option, serde/de.rs:200-208 *)
  | SOpt t' =>
      fun bs =>
        let* (some, r) := f_opt_dec F bs in
        if some : bool then let* (v, r') := sdec F t' r in Ok (VSome v, r') else Ok (VNone, r)
  (* deserialize_newtype_struct, serde/de.rs:233-242 *)
  | SNew t' => sdec F t'
  (* deserialize_seq, serde/de.rs:245-254, SeqAccess, 489-529: elements until there are none *)
  | SSeq t' =>
      fun bs =>
        let* (n, r) := f_seq_dec F bs in
        let* (vs, r') := dec_count n (sdec F t') r in
        Ok (VList vs, r')
  | SSet t' =>
      fun bs =>
        let* (n, r) := f_seq_dec F bs in
        let* (vs, r') := iterN n (fun s => let* (v, r) := sdec F t' (snd s) in
                                           Ok (set_insert v (fst s), r)) ([], r) in
        Ok (VList vs, r')
  (* deserialize_tuple, serde/de.rs:257-281, SequenceAccess, 352-391: the visitor takes its elements and reports a missing
     one; what remains is left to [decode_sequence] *)
  | STup ts =>
      let ds := map (sdec F) ts in
      fun bs =>
        let* (m, r) := f_seq_dec F bs in
        if m <? lenN ts then
          let* (_, _) := dec_list (firstn (N.to_nat m) ds) r in Err
        else
          let* (vs, r') := dec_list ds r in
          let* (_, r'') := f_skip_rest F (m - lenN ts) r' in
          Ok (VList vs, r'')
  (* deserialize_map, serde/de.rs:284-293, MapAccess, 531-576 *)
  | SMap tk tv =>
      fun bs =>
        let* (n, r) := f_map_dec F bs in
        let* (kvs, r') := iterN n (fun s => let* (k, r) := sdec F tk (snd s) in
                                            let* (v, r') := sdec F tv r in
                                            Ok (map_insert k v (fst s), r')) ([], r) in
        Ok (VMap kvs, r')
  (* deserialize_struct, serde/de.rs:296-310, StructAccess, 393-442 *)
  | SStruct fs =>
      let ds := map (fun ft => sdec F (snd ft)) fs in
      let names := map (fun ft => VBytes (sname (fst ft))) fs in
      fun bs =>
        let* (n, r) := f_map_dec F bs in
        let* (s, r') := iterN n (de_field (f_leaf_dec F TStr) names ds (f_skip F))
                          (map (fun _ => None) fs, r) in
        let* vs := de_fill (map (fun ft => missing (fst ft) (snd ft)) fs) s in
        Ok (VList vs, r')
  (* deserialize_enum, serde/de.rs:313-327, EnumAccess, 622-709 *)
  | SEnum vs =>
      let ds := map (fun tv => sdec F (snd (snd tv))) vs in
      fun bs =>
        let* (_, r0) := f_var_dec F bs in
        let* (k, r) := f_leaf_dec F TStr r0 in
        match find_name k (map (fun tv => VBytes (fst tv)) vs) with
        | Some i =>
            match nth_error ds i with
            | Some d => let* (v, r') := d r in Ok (VVar i v, r')
            | None => Err
            end
        | None => Err
        end
  end.

(** The storage format as the trait methods that serde reaches; no method that serde calls
    takes the native-memory fast path. [skip] is not supported; decode_sequence rejects
    elements that its callback left, storage/de.rs:379-392. Packs are not used by serde. *)
Definition storage (p : plat) (o : N) : fmt := {|
  f_leaf_enc t := enc p o false t;
  f_leaf_dec t := dec_ p o false t;
  f_seq_enc n := encode_usize p o n;
  f_seq_dec bs := decode_usize p o bs;
  f_map_enc n := encode_usize p o n;
  f_map_dec bs := decode_usize p o bs;
  f_none := [0];
  f_some := [1];
  f_opt_dec bs := let* (b, r) := read_byte bs in Ok (b =? 1, r);
  f_var := [];
  f_var_dec bs := Ok (tt, bs);
  f_pack_enc _ := Err;
  f_pack_dec _ := Err;
  f_skip := no_skip;
  f_skip_rest n bs := if n =? 0 then Ok (tt, bs) else Err
|}.

(** ** JSON *)

(** [Serializer] over a [JsonObjectKeyEncoder]: integers and strings only, see [Json.jkenc]. *)
Fixpoint sjkenc (t : sty) {struct t} : val -> res bytes :=
  match t with
  | SU _ => fun v => match v with VN n => Ok (quoted (itoa n)) | _ => Err end
  | SI _ => fun v => match v with VZ z => Ok (quoted (itoa_z z)) | _ => Err end
  | SStr => fun v => match v with VBytes s => Ok (encode_string s) | _ => Err end
  | SNew t' => sjkenc t'
  | _ => fun _ => Err
  end.

Fixpoint ser_json_fields (fs : list (sfield * (val -> res bytes))) (vs : list val) :
    res (list bytes) :=
  match fs, vs with
  | [], [] => Ok []
  | (f, e) :: fs', v :: vs' =>
      if sskip f v then ser_json_fields fs' vs'
      else
        let* b := e v in
        let* c := ser_json_fields fs' vs' in
        Ok (pair (encode_string (sname f)) b :: c)
  | _, _ => Err
  end.

(** The text between the opening bracket or brace of an array or object and what closes it. *)
Definition closed (open : N) (l : list bytes) (close : bytes) : bytes :=
  [open] ++ comma_sep l ++ close.

Fixpoint sjenc (t : sty) {struct t} : val -> res bytes :=
  match t with
  | SUnit => fun v => match v with VUnit => Ok lit_null | _ => Err end
  | SBool => fun v => match v with VBool b => Ok (if b then lit_true else lit_false) | _ => Err end
  | SChar => fun v => match v with VN c => Ok (encode_string (utf8_enc c)) | _ => Err end
  | SU _ => fun v => match v with VN n => Ok (itoa n) | _ => Err end
  | SI _ => fun v => match v with VZ z => Ok (itoa_z z) | _ => Err end
  | SF32 => fun v => match v with VN x => Ok (text_f32 x) | _ => Err end
  | SF64 => fun v => match v with VN x => Ok (text_f64 x) | _ => Err end
  | SStr => fun v => match v with VBytes s => Ok (encode_string s) | _ => Err end
  | SBytes => fun v => match v with VBytes s => Ok (in_brackets (map itoa s)) | _ => Err end
  | SOpt t' =>
      fun v => match v with
               | VNone => Ok lit_null
               | VSome x => sjenc t' x
               | _ => Err end
  | SNew t' => sjenc t'
  | SSeq t' | SSet t' =>
      fun v => match v with
               | VList vs => let* l := map_res (sjenc t') vs in Ok (closed 91 l [93])
               | _ => Err end
  | STup ts =>
      let es := map sjenc ts in
      fun v => match v with
               | VList vs => let* l := zip_res es vs in Ok (closed 91 l [93])
               | _ => Err end
  (* EntriesEncoder of JsonObjectEncoder, json/en/object_encoder.rs:102-120 *)
  | SMap tk tv =>
      fun v => match v with
               | VMap kvs =>
                   let* l := map_res (fun kv => let* a := sjkenc tk (fst kv) in
                                                let* b := sjenc tv (snd kv) in
                                                Ok (pair a b)) kvs in
                   Ok (closed 123 l [125])
               | _ => Err end
  | SStruct fs =>
      let es := map (fun ft => (fst ft, sjenc (snd ft))) fs in
      fun v => match v with
               | VList vs => let* l := ser_json_fields es vs in Ok (closed 123 l [125])
               | _ => Err end
  | SEnum vs =>
      (* JsonVariantEncoder, json/en/variant_encoder.rs:22-70 *)
      let whole (k : bytes) (e : val -> res bytes) (x : val) :=
        let* b := e x in Ok ([123] ++ encode_string k ++ [58] ++ b ++ [125]) in
      let es := map (fun tv =>
        match snd tv with
        (* encode_sequence_variant, json/en/mod.rs:282-294: one encoder closes both *)
        | (Own, STup ts) =>
            let es := map sjenc ts in
            fun x => match x with
                     | VList xs =>
                         let* l := zip_res es xs in
                         Ok ([123] ++ encode_string (fst tv) ++ [58] ++ closed 91 l [93; 125])
                     | _ => Err end
        (* encode_map_variant, json/en/mod.rs:297-309 *)
        | (Own, SStruct fs) =>
            let es := map (fun ft => (fst ft, sjenc (snd ft))) fs in
            fun x => match x with
                     | VList xs =>
                         let* l := ser_json_fields es xs in
                         Ok ([123] ++ encode_string (fst tv) ++ [58] ++ closed 123 l [125; 125])
                     | _ => Err end
        | (_, t') => whole (fst tv) (sjenc t')
        end) vs in
      fun v => match v with
               | VVar i x => match nth_error es i with Some e => e x | None => Err end
               | _ => Err end
  end.

(** [Deserializer] over a [JsonKeyDecoder], see [Json.jkdec]. *)
Fixpoint sjkdec (oc : bool) (t : sty) {struct t} : dec val :=
  match t with
  | SU w => key_unsigned oc (bits w)
  | SI w => key_signed oc (bits w)
  | SStr => fun bs => let* (s, r) := parse_string bs in Ok (VBytes s, r)
  | SNew t' => sjkdec oc t'
  | _ => fun _ => Err
  end.

(** One entry of a derived struct, as [de_field]. *)
Definition de_json_field (names : list val) (ds : list (dec val))
    (s : slots) (bs : bytes) : res (slots * bytes) :=
  let* (k, r0) := parse_string bs in
  match find_name (VBytes k) names with
  | Some i =>
      match nth_error ds i, nth_error s i with
      | Some d, Some None => let* r := expect KColon r0 in
                             let* (v, r') := d r in Ok (set_slot i v s, r')
      | _, _ => Err
      end
  | None => let* r := expect KColon r0 in
            let* r' := skip_value r in Ok (s, r')
  end.

Fixpoint sjdec (oc : bool) (t : sty) {struct t} : dec val :=
  let fl (F : raw_float) : dec val := fun bs => let* (n, r) := json_decode_float F bs in Ok (VN n, r) in
  match t with
  | SUnit => fun bs => let* r := skip_value bs in Ok (VUnit, r)
  | SBool =>
      fun bs =>
        let (k, r) := lex bs in
        match k with
        | KTrue => let* r' := parse_exact lit_true r in Ok (VBool true, r')
        | KFalse => let* r' := parse_exact lit_false r in Ok (VBool false, r')
        | _ => Err
        end
  | SChar => fun bs => let* (c, r) := decode_char bs in Ok (VN c, r)
  | SU w => fun bs => let* (n, r) := parse_unsigned oc (bits w) bs in Ok (VN n, r)
  | SI w => fun bs => let* (z, r) := parse_signed oc (bits w) bs in Ok (VZ z, r)
  | SF32 => fl F32
  | SF64 => fl F64
  | SStr => fun bs => let* (s, r) := parse_string bs in Ok (VBytes s, r)
  | SBytes => fun bs => let* (s, r) := dec_sequence (byte_step oc) [] bs in Ok (VBytes s, r)
  | SOpt t' =>
      fun bs =>
        let (k, r) := lex bs in
        match k with
        | KNull => let* r' := parse_exact lit_null r in Ok (VNone, r')
        | _ => let* (v, r') := sjdec oc t' r in Ok (VSome v, r')
        end
  | SNew t' => sjdec oc t'
  | SSeq t' =>
      fun bs =>
        let* (vs, r) := dec_sequence (fun s bs => let* (v, r) := sjdec oc t' bs in
                                                  Ok (s ++ [v], r)) [] bs in
        Ok (VList vs, r)
  | SSet t' =>
      fun bs =>
        let* (vs, r) := dec_sequence (fun s bs => let* (v, r) := sjdec oc t' bs in
                                                  Ok (set_insert v s, r)) [] bs in
        Ok (VList vs, r)
  | STup ts =>
      let ds := map (sjdec oc) ts in
      fun bs => let* (vs, r) := dec_tuple ds bs in Ok (VList vs, r)
  | SMap tk tv =>
      fun bs =>
        let* (kvs, r) := dec_object (fun s bs => let* (k, r0) := sjkdec oc tk bs in
                                                 let* r := expect KColon r0 in
                                                 let* (v, r') := sjdec oc tv r in
                                                 Ok (map_insert k v s, r')) [] bs in
        Ok (VMap kvs, r)
  | SStruct fs =>
      let ds := map (fun ft => sjdec oc (snd ft)) fs in
      let names := map (fun ft => VBytes (sname (fst ft))) fs in
      fun bs =>
        let* r := expect KOBrace bs in
        let* (s, r') := obj_loop (Datatypes.S (length r)) (de_json_field names ds) true
                          (map (fun _ => None) fs) r in
        let* vs := de_fill (map (fun ft => missing (fst ft) (snd ft)) fs) s in
        let* r'' := skip_entries false r' in
        Ok (VList vs, r'')
  | SEnum vs =>
      let ds := map (fun tv => sjdec oc (snd (snd tv))) vs in
      fun bs =>
        let* r0 := expect KOBrace bs in
        let* (k, r1) := parse_string r0 in
        match find_name (VBytes k) (map (fun tv => VBytes (fst tv)) vs) with
        | Some i =>
            match nth_error ds i with
            | Some d =>
                let* r2 := expect KColon r1 in
                let* (v, r3) := d r2 in
                let* r4 := expect KCBrace r3 in
                Ok (VVar i v, r4)
            | None => Err
            end
        | None => Err
        end
  end.
