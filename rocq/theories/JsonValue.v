(** Model of writing a dynamic [Value] in the JSON format: value/value.rs:222-247 and 511-559 with the encoders of
    crates/musli/src/json/en. Reading one is in [JsonAny.v]. *)
From Verif Require Import Base Options Int Utf8 Types Json JsonNum Value Any.
Local Open Scope N_scope.

(** [map_res] in a form that allows for recursion through it *)
Definition map_in {A B} (f : A -> res B) : list A -> res (list B) :=
  fix go l :=
    match l with
    | [] => Ok []
    | x :: r => let* a := f x in let* b := go r in Ok (a :: b)
    end.

(** [Number::encode], value/value.rs:222-247, with a [JsonEncoder]: json/en/mod.rs:98-195. Unsigned and signed
    integers of every width are written by [itoa], floating point numbers by [ryu]. *)
Definition jnum_enc (n : number) : bytes :=
  match n with
  | NU _ n | NUsize n => itoa n
  | NI _ z | NIsize z => itoa_z z
  | NF32 x => text_f32 x
  | NF64 x => text_f64 x
  end.

(** [Value::encode] with a [JsonObjectKeyEncoder], json/en/object_key_encoder.rs:24-127: everything that is not
    listed there is an error. *)
Definition jkey_enc (x : value) : res bytes :=
  match x with
  | UNum (NU _ n) | UNum (NUsize n) => Ok (quoted (itoa n))
  | UNum (NI _ z) | UNum (NIsize z) => Ok (quoted (itoa_z z))
  | UStr s => Ok (encode_string s)
  | _ => Err
  end.

(** [Value::encode] with a [JsonEncoder]. A map is written entry by entry, [insert_entry] of
    json/en/object_encoder.rs:11-60, a variant with json/en/variant_encoder.rs:22-70. The encoders
    write as they go: that part of the output remains when there is an error is left out. *)
Fixpoint json_encode_value (x : value) {struct x} : res bytes :=
  match x with
  | UUnit | UOpt None => Ok lit_null
  | UBool b => Ok (if b then lit_true else lit_false)
  | UChar c => Ok (encode_string (utf8_enc c))
  | UNum n => Ok (jnum_enc n)
  | UBytes bs => Ok (in_brackets (map itoa bs))
  | UStr s => Ok (encode_string s)
  | USeq xs => let* l := map_in json_encode_value xs in Ok (in_brackets l)
  | UMap es =>
      let* l := map_in (fun '(k, y) => let* a := jkey_enc k in
                                       let* b := json_encode_value y in
                                       Ok (pair a b)) es in
      Ok (in_braces l)
  | UVariant k y => let* a := jkey_enc k in let* b := json_encode_value y in Ok (in_braces [pair a b])
  | UOpt (Some y) => json_encode_value y
  end.
