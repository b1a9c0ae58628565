(** Model of [decode_any] in the JSON format, crates/musli/src/json: reading a dynamic [Value] and, with
    it, [decode_buffer]. *)
From Verif Require Import Base Options Int Utf8 Types Storage Json JsonNum Value Any Tagged.
Local Open Scope N_scope.

(** ** Numbers *)

(** The range tests of [parse_number], json/parser/parser.rs:192-212. Those for [isize] come after
    those for [i64], and [isize] has at most 64 bits. *)
Definition least_signed (z : Z) : number :=
  let fits b := ((- 2 ^ (b - 1) <=? z) && (z <=? 2 ^ (b - 1) - 1))%Z in
  if fits 8%Z then NI W8 z
  else if fits 16%Z then NI W16 z
  else if fits 32%Z then NI W32 z
  else if fits 64%Z then NI W64 z
  else NI W128 z.

(** json/parser/parser.rs:222-242 *)
Definition least_unsigned (n : N) : number :=
  if n <? 2 ^ 8 then NU W8 n
  else if n <? 2 ^ 16 then NU W16 n
  else if n <? 2 ^ 32 then NU W32 n
  else if n <? 2 ^ 64 then NU W64 n
  else NU W128 n.

(** [compute_float], json/parser/integer.rs:79-93, 124-126, 204-211: [e - exp] is computed in [i32]. The floating
    point arithmetic itself is a parameter: [fl neg q] is the bit pattern of the result. *)
Definition as_float (oc : bool) (fl : bool -> parts -> N) (neg : bool) (q : parts) : res number :=
  if oc && (pt_e q - Z.of_N (pt_exp q) <? - 2 ^ 31)%Z then Panic else Ok (NF64 (fl neg q)).

(** [parse_number], json/parser/parser.rs:175-244 *)
Definition parse_number (oc : bool) (fl : bool -> parts -> N) (bs : bytes) : res (number * bytes) :=
  let* (nq, r) := signed_full oc 128 (skip_ws bs) in
  let (neg, q) := nq : bool * parts in
  if neg then
    match signed_compute oc 128 true q with
    | Ok z => Ok (least_signed z, r)
    | Err => let* f := as_float oc fl true q in Ok (f, r)
    | Panic => Panic
    end
  else
    match compute oc 128 q with
    | Ok n => Ok (least_unsigned n, r)
    | Err => let* f := as_float oc fl false q in Ok (f, r)
    | Panic => Panic
    end.

(** ** Values *)

(** [Value::decode] with a [JsonKeyDecoder], json/de/key_decoder.rs:156-170. Only a string token gets
    here: [parse_map_key], json/de/object_decoder.rs:57-84. *)
Definition jany_key (bs : bytes) : res (value * bytes) :=
  let* (s, r) := parse_string bs in Ok (UStr s, r).

(** [Value::decode] with a [JsonDecoder]: [decode_any], json/de/mod.rs:431-459, with [AnyVisitor],
    value/value.rs:277-467. [fuel] bounds the depth of nesting; every level reads at least one byte. *)
Fixpoint jany (fuel : nat) (oc : bool) (fl : bool -> parts -> N) (bs : bytes) {struct fuel} :
    res (value * bytes) :=
  match fuel with
  | O => Panic
  | S f =>
      let (t, r) := lex bs in
      match t with
      | KOBrace =>
          let* (es, r') := dec_object (fun s bs => let* (k, r0) := jany_key bs in
                                                   let* r := expect KColon r0 in
                                                   let* (x, r') := jany f oc fl r in
                                                   Ok (s ++ [(k, x)], r')) [] r in
          Ok (UMap es, r')
      | KOBracket =>
          let* (xs, r') := dec_sequence (fun s bs => let* (x, r) := jany f oc fl bs in
                                                     Ok (s ++ [x], r)) [] r in
          Ok (USeq xs, r')
      | KString => let* (s, r') := parse_string r in Ok (UStr s, r')
      | KNumber => let* (n, r') := parse_number oc fl r in Ok (UNum n, r')
      | KNull => let* r' := parse_exact lit_null r in Ok (UUnit, r')
      | KTrue => let* r' := parse_exact lit_true r in Ok (UBool true, r')
      | KFalse => let* r' := parse_exact lit_false r in Ok (UBool false, r')
      | _ => Err
      end
  end.

(** ** The API *)

(** [Value] with json::decode *)
Definition json_decode_value (oc : bool) (fl : bool -> parts -> N) : dec value :=
  fun bs => jany (S (length bs)) oc fl bs.

(** [BUFFER_OPTIONS], json/de/mod.rs:43 *)
Definition JSON_BUFFER_OPTIONS (p : plat) : N := build p [CMapKeys].

(** [T::decode] from the decoder that [decode_buffer] returns, json/de/mod.rs:155-161 *)
Definition json_decode_buffered (p : plat) (oc : bool) (fl : bool -> parts -> N) (t : ty) : dec val :=
  fun bs =>
    let* (x, r) := json_decode_value oc fl bs in
    let* v := vdec p (JSON_BUFFER_OPTIONS p) (is_map_keys_as_numbers_value (JSON_BUFFER_OPTIONS p)) false t x in
    Ok (v, r).

(** An internally tagged enum in JSON: musli-macros/src/de.rs:461-657 with [decode_buffer] of
    json/de/mod.rs:155-161 *)
Definition json_int_dec (p : plat) (oc : bool) (fl : bool -> parts -> N) (e : tenum) : dec val :=
  fun bs =>
    let* (x, r) := json_decode_value oc fl bs in
    let* v := int_dec_value p (JSON_BUFFER_OPTIONS p)
                (is_map_keys_as_numbers_value (JSON_BUFFER_OPTIONS p)) e x in
    Ok (v, r).

(** The same enum encoded in JSON: musli-macros/src/en.rs:584-697, as [int_enc] of [Tagged.v], with the map
    encoder of json/en/object_encoder.rs:11-60 *)
Definition json_int_enc (p : plat) (e : tenum) (v : val) : res bytes :=
  match v with
  | VVar i (VList vs) =>
      match nth_error (e_vars e) i with
      | Some (name, TStruct kt fs) =>
          let* a := jkenc p (e_key e) (e_tag e) in
          let* b := jenc p (e_name e) name in
          let* l := jenc_fields (jkenc p kt) (map (fun ft => (fst ft, jenc p (snd ft))) fs) vs in
          Ok (in_braces (pair a b :: l))
      | _ => Err
      end
  | _ => Err
  end.
