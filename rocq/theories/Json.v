(** Model of crates/musli/src/json: the encoder of json/en, the decoder of json/de and
    the parser of json/parser over a slice, together with the implementations of
    [Encode] and [Decode] of crates/musli-core/src/impls and the code
    generated by crates/musli-macros.

    Floating point text is that of [Dec2flt.v] and [NumText.v].

    Not modelled here: the
    [parse-full] feature (not a default feature; see [JsonNum.v]), [decode_any] (see
    [JsonAny.v]), and the position bookkeeping of the context. A loop of the code whose rounds
    each consume input has a bound computed from the length of the
    input; running out of it is [Panic], and C24's safety theorem shows
    that it never happens. *)
From Verif Require Import Base Options Int Utf8 Types.
From Verif Require Export NumText.
From Verif Require Import Dec2flt.
Local Open Scope N_scope.

(** ** Tokens *)

(** json/parser/token.rs:7-38 *)
Inductive token :=
| KComma | KColon | KWs | KOBrace | KCBrace | KOBracket | KCBracket
| KString | KNumber | KNull | KTrue | KFalse | KError | KEof.

(** [Token::from_byte] through the table MAP, json/parser/token.rs:45-62, 114-132 *)
Definition from_byte (b : N) : token :=
  if (b =? 9) || (b =? 10) || (b =? 12) || (b =? 13) || (b =? 32) then KWs
  else if b =? 34 then KString
  else if b =? 44 then KComma
  else if (b =? 45) || between 48 57 b then KNumber
  else if b =? 58 then KColon
  else if b =? 91 then KOBracket
  else if b =? 93 then KCBracket
  else if b =? 102 then KFalse
  else if b =? 110 then KNull
  else if b =? 116 then KTrue
  else if b =? 123 then KOBrace
  else if b =? 125 then KCBrace
  else KError.

(** [Token::is_value], json/parser/token.rs:65-67 *)
Definition is_value (t : token) : bool :=
  match t with
  | KOBrace | KOBracket | KString | KNumber | KNull | KTrue | KFalse => true
  | _ => false
  end.

(** [skip_whitespace], json/parser/slice_parser.rs:109-120 *)
Definition is_ws (b : N) : bool := (b =? 32) || (b =? 10) || (b =? 9) || (b =? 13).
Fixpoint skip_ws (bs : bytes) : bytes :=
  match bs with
  | b :: r => if is_ws b then skip_ws r else bs
  | [] => []
  end.

(** [peek] and [Token::from_byte], json/parser/slice_parser.rs:123-125, parser.rs:133-137 *)
Definition tok (bs : bytes) : token :=
  match bs with [] => KEof | b :: _ => from_byte b end.

(** [Parser::lex], json/parser/parser.rs:127-138: skip whitespace and look at the next byte. *)
Definition lex (bs : bytes) : token * bytes := (tok (skip_ws bs), skip_ws bs).

(** [skip(cx, 1)], json/parser/slice_parser.rs:73-86 *)
Definition skip1 (bs : bytes) : res bytes := match bs with [] => Err | _ :: r => Ok r end.

Definition token_eqb (a b : token) : bool :=
  match a, b with
  | KComma, KComma | KColon, KColon | KWs, KWs | KOBrace, KOBrace | KCBrace, KCBrace
  | KOBracket, KOBracket | KCBracket, KCBracket | KString, KString | KNumber, KNumber
  | KNull, KNull | KTrue, KTrue | KFalse, KFalse | KError, KError | KEof, KEof => true
  | _, _ => false
  end.

(** Lex, require the token and consume its byte: the pattern
    [if !matches!(parser.lex(cx), Token::X) { return Err(..) } parser.skip(cx, 1)?] *)
Definition expect (k : token) (bs : bytes) : res bytes :=
  let (t, r) := lex bs in if token_eqb t k then skip1 r else Err.

(** [parse_exact], json/parser/parser.rs:151-171 *)
Definition parse_exact (lit : bytes) (bs : bytes) : res bytes :=
  match take_opt (lenN lit) bs with
  | Some (h, r) => if list_eq_dec N.eq_dec h lit then Ok r else Err
  | None => Err
  end.

Definition lit_null : bytes := [110; 117; 108; 108].
Definition lit_true : bytes := [116; 114; 117; 101].
Definition lit_false : bytes := [102; 97; 108; 115; 101].

(** ** Strings *)

(** The table ESCAPE of json/parser/string.rs:13-39: control characters, quote, backslash *)
Definition needs_escape (b : N) : bool := (b <? 32) || (b =? 34) || (b =? 92).

(** The longest run of bytes that need no escape: the inner [while] loops,
    json/parser/string.rs:304-307, 379-386 *)
Fixpoint span_plain (bs : bytes) : bytes * bytes :=
  match bs with
  | [] => ([], [])
  | b :: r => if needs_escape b then ([], bs) else let (h, t) := span_plain r in (b :: h, t)
  end.

(** [decode_hex_val], json/parser/string.rs:415-447 *)
Definition hex_val (b : N) : option N :=
  if between 48 57 b then Some (b - 48)
  else if between 65 70 b then Some (b - 55)
  else if between 97 102 b then Some (b - 87)
  else None.

(** [parse_hex_escape], json/parser/string.rs:85-106 *)
Definition parse_hex (bs : bytes) : res (N * bytes) :=
  match bs with
  | a :: b :: c :: d :: r =>
      match hex_val a, hex_val b, hex_val c, hex_val d with
      | Some x, Some y, Some z, Some w => Ok (((x * 16 + y) * 16 + z) * 16 + w, r)
      | _, _, _, _ => Err
      end
  | _ => Err
  end.

(** The character of a [\u] escape, json/parser/string.rs:138-199, with [validate = true]
    (which all callers pass). *)
Definition parse_u (bs : bytes) : res (N * bytes) :=
  let* (n1, r) := parse_hex bs in
  if between 0xDC00 0xDFFF n1 then Err
  else if between 0xD800 0xDBFF n1 then
    match r with
    | 92 :: 117 :: r' =>
        let* (n2, r'') := parse_hex r' in
        if between 0xDC00 0xDFFF n2 then
          let n := (n1 - 0xD800) * 1024 + (n2 - 0xDC00) + 0x10000 in
          if char_valid n then Ok (n, r'') else Err
        else Err
    | _ => Err
    end
  else Ok (n1, r).

(** [parse_escape], json/parser/string.rs:110-214: the bytes that it appends to the scratch
    buffer and the remaining input. A full scratch buffer is not modelled. *)
Definition parse_escape (bs : bytes) : res (bytes * bytes) :=
  match bs with
  | [] => Err
  | b :: r =>
      if b =? 34 then Ok ([34], r)
      else if b =? 92 then Ok ([92], r)
      else if b =? 47 then Ok ([47], r)
      else if b =? 98 then Ok ([8], r)
      else if b =? 102 then Ok ([12], r)
      else if b =? 110 then Ok ([10], r)
      else if b =? 114 then Ok ([13], r)
      else if b =? 116 then Ok ([9], r)
      else if b =? 117 then let* (c, r') := parse_u r in Ok (utf8_enc c, r')
      else Err
  end.

(** [SliceAccess::parse_string], json/parser/string.rs:293-374. Each segment is checked to be
    UTF-8 on its own. *)
Fixpoint str_loop (fuel : nat) (scratch : bytes) (bs : bytes) : res (bytes * bytes) :=
  match fuel with
  | O => Panic
  | S f =>
      let (seg, r) := span_plain bs in
      match r with
      | [] => Err
      | b :: r' =>
          if b =? 34 then
            if utf8_valid seg then Ok (scratch ++ seg, r') else Err
          else if b =? 92 then
            if utf8_valid seg then
              let* (c, r'') := parse_escape r' in
              str_loop f (scratch ++ seg ++ c) r''
            else Err
          else Err
      end
  end.

(** [Parser::parse_string], json/parser/parser.rs:39-57 *)
Definition parse_string (bs : bytes) : res (bytes * bytes) :=
  let* r := expect KString bs in
  str_loop (S (length r)) [] r.

(** [skip_string], json/parser/string.rs:377-402. [skip_escape(true)], 218-290, accepts the same
    escapes as [parse_escape(true)]. *)
Fixpoint skip_str_loop (fuel : nat) (bs : bytes) : res bytes :=
  match fuel with
  | O => Panic
  | S f =>
      match snd (span_plain bs) with
      | [] => Err
      | b :: r =>
          if b =? 34 then Ok r
          else if b =? 92 then let* (_, r') := parse_escape r in skip_str_loop f r'
          else Err
      end
  end.
Definition skip_string (bs : bytes) : res bytes := skip_str_loop (S (length bs)) bs.

(** One character of a string that is known to be UTF-8: core::str::Chars *)
Definition utf8_next (bs : bytes) : option (N * bytes) :=
  match bs with
  | [] => None
  | b0 :: r0 =>
      if b0 <? 128 then Some (b0, r0)
      else match r0 with
      | [] => None
      | b1 :: r1 =>
          if b0 <? 224 then Some ((b0 - 192) * 64 + (b1 - 128), r1)
          else match r1 with
          | [] => None
          | b2 :: r2 =>
              if b0 <? 240 then Some ((b0 - 224) * 4096 + (b1 - 128) * 64 + (b2 - 128), r2)
              else match r2 with
              | [] => None
              | b3 :: r3 =>
                  Some ((b0 - 240) * 262144 + (b1 - 128) * 4096 + (b2 - 128) * 64 + (b3 - 128), r3)
              end
          end
      end
  end.

(** [decode_char], json/de/mod.rs:186-202 *)
Definition decode_char (bs : bytes) : res (N * bytes) :=
  let* (s, r) := parse_string bs in
  match utf8_next s with
  | Some (c, []) => Ok (c, r)
  | _ => Err
  end.

(** ** Integers *)

Definition is_digit_nonzero (b : N) : bool := between 49 57 b.

(** The digits after the first, json/parser/integer.rs:415-417 and [digit], 518-529:
    [checked_mul10] and then an unchecked [+], which panics when overflow checks are
    on ([oc], the default in debug builds) and wraps otherwise. *)
Fixpoint digits (oc : bool) (tb acc : N) (bs : bytes) : res (N * bytes) :=
  match bs with
  | [] => Ok (acc, [])
  | b :: r =>
      if is_digit b then
        if 2 ^ tb <=? acc * 10 then Err
        else
          let s := acc * 10 + (b - 48) in
          if 2 ^ tb <=? s then
            if oc then Panic else digits oc tb (s mod 2 ^ tb) r
          else digits oc tb s r
      else Ok (acc, bs)
  end.

(** [decode_unsigned_base], json/parser/integer.rs:404-427 *)
Definition unsigned_base (oc : bool) (tb : N) (bs : bytes) : res (N * bytes) :=
  match bs with
  | [] => Err
  | b :: r =>
      if b =? 48 then Ok (0, r)
      else if is_digit_nonzero b then digits oc tb (b - 48) r
      else Err
  end.

(** [parse_unsigned_base], json/parser/integer.rs:267-277 *)
Definition parse_unsigned (oc : bool) (tb : N) (bs : bytes) : res (N * bytes) :=
  unsigned_base oc tb (skip_ws bs).

(** [negate] and [signed], json/parser/integer.rs:708-723 *)
Definition negate (tb n : N) : res Z := if 2 ^ (tb - 1) <? n then Err else Ok (- Z.of_N n)%Z.
Definition signed (tb n : N) : res Z := if 2 ^ (tb - 1) - 1 <? n then Err else Ok (Z.of_N n).

(** [decode_signed_base] and [parse_signed_base], json/parser/integer.rs:300-321, 366-380; [SignedPartsBase::compute], 25-41 *)
Definition parse_signed (oc : bool) (tb : N) (bs : bytes) : res (Z * bytes) :=
  match skip_ws bs with
  | 45 :: r => let* (n, r') := unsigned_base oc tb r in
               let* z := negate tb n in Ok (z, r')
  | r => let* (n, r') := unsigned_base oc tb r in
         let* z := signed tb n in Ok (z, r')
  end.

(** ** Skipping *)

(** [consume_while(is_digit)], json/parser/parser.rs:104-121 *)
Fixpoint skip_digits (bs : bytes) : bytes :=
  match bs with
  | b :: r => if is_digit b then skip_digits r else bs
  | [] => []
  end.

(** [skip_number], json/parser/integer.rs:217-262 *)
Definition skip_number (bs : bytes) : res bytes :=
  let r0 := match bs with 45 :: r => r | _ => bs end in
  let* r1 := match r0 with
             | [] => Err
             | b :: r => if b =? 48 then Ok r
                         else if is_digit_nonzero b then Ok (skip_digits r) else Err
             end in
  let r2 := match r1 with 46 :: r => skip_digits r | _ => r1 end in
  match r2 with
  | b :: r =>
      if (b =? 101) || (b =? 69) then
        Ok (skip_digits (match r with
                         | c :: r' => if (c =? 45) || (c =? 43) then r' else r
                         | [] => r end))
      else Ok r2
  | [] => Ok []
  end.

(** [parse_next_value], json/de/sequence_decoder.rs:46-70: position at the next element, or
    at the closing bracket. Whitespace is skipped in the same loop as commas. *)
Fixpoint next_value (first : bool) (bs : bytes) : res (bool * bytes) :=
  match bs with
  | [] => Err
  | b :: r =>
      if is_ws b then next_value first r
      else if is_value (from_byte b) then Ok (true, bs)
      else match from_byte b with
           | KComma => if first then Err else next_value first r
           | KCBracket => Ok (false, bs)
           | _ => Err
           end
  end.

(** [parse_map_key], json/de/object_decoder.rs:57-84 *)
Fixpoint next_key (first : bool) (bs : bytes) : res (bool * bytes) :=
  match bs with
  | [] => Err
  | b :: r =>
      if is_ws b then next_key first r
      else match from_byte b with
           | KString => Ok (true, bs)
           | KComma => if first then Err else next_key first r
           | KCBrace => Ok (false, bs)
           | _ => Err
           end
  end.

(** [skip_any], json/de/mod.rs:70-90, with [skip_sequence_remaining]
    (json/de/sequence_decoder.rs:73-94) and [skip_object_remaining]
    (json/de/object_decoder.rs:88-112). *)
Fixpoint skip_any (fuel : nat) (bs : bytes) {struct fuel} : res bytes :=
  match fuel with
  | O => Panic
  | S f =>
      let (t, r) := lex bs in
      match t with
      | KOBrace => let* r' := skip1 r in skip_obj f true r'
      | KOBracket => let* r' := skip1 r in skip_seq f true r'
      | KNull => parse_exact lit_null r
      | KTrue => parse_exact lit_true r
      | KFalse => parse_exact lit_false r
      | KNumber => skip_number r
      | KString => let* r' := skip1 r in skip_string r'
      | _ => Err
      end
  end
with skip_seq (fuel : nat) (first : bool) (bs : bytes) {struct fuel} : res bytes :=
  match fuel with
  | O => Panic
  | S f =>
      let* (more, r) := next_value first bs in
      if more : bool then let* r' := skip_any f r in skip_seq f false r'
      else expect KCBracket r
  end
with skip_obj (fuel : nat) (first : bool) (bs : bytes) {struct fuel} : res bytes :=
  match fuel with
  | O => Panic
  | S f =>
      let* (more, r) := next_key first bs in
      if more : bool then
        let* r1 := skip_any f r in
        let* r2 := expect KColon r1 in
        let* r3 := skip_any f r2 in
        skip_obj f false r3
      else expect KCBrace r
  end.

(** A bound that is always enough. *)
Definition skip_fuel (bs : bytes) : nat := 2 * length bs + 2.
Definition skip_value (bs : bytes) : res bytes := skip_any (skip_fuel bs) bs.
Definition skip_rest (first : bool) (bs : bytes) : res bytes := skip_seq (skip_fuel bs) first bs.
Definition skip_entries (first : bool) (bs : bytes) : res bytes := skip_obj (skip_fuel bs) first bs.

(** ** Decoding *)

(** [while let Some(item) = seq.try_decode_next()? { .. }]; ends at the closing bracket,
    which is not consumed, json/de/sequence_decoder.rs:122-128. *)
Fixpoint seq_loop {S : Type} (fuel : nat) (step : S -> bytes -> res (S * bytes))
    (first : bool) (s : S) (bs : bytes) : res (S * bytes) :=
  match fuel with
  | O => Panic
  | Datatypes.S f =>
      let* (more, r) := next_value first bs in
      if more : bool then
        let* (s', r') := step s r in seq_loop f step false s' r'
      else Ok (s, r)
  end.

(** [decode_sequence] with a callback that takes every element, json/de/mod.rs:348-379 *)
Definition dec_sequence {S : Type} (step : S -> bytes -> res (S * bytes)) (s : S) (bs : bytes) :
    res (S * bytes) :=
  let* r := expect KOBracket bs in
  let* (s', r') := seq_loop (Datatypes.S (length r)) step true s r in
  let* r'' := skip_rest false r' in
  Ok (s', r'').

(** [decode_next] once for each decoder, json/de/sequence_decoder.rs:131-137 *)
Fixpoint next_list (ds : list (dec val)) (first : bool) (bs : bytes) : res (list val * bytes) :=
  match ds with
  | [] => Ok ([], bs)
  | d :: ds' =>
      let* (more, r) := next_value first bs in
      if more : bool then
        let* (v, r') := d r in
        let* (vs, r'') := next_list ds' false r' in
        Ok (v :: vs, r'')
      else Err
  end.

(** [decode_sequence] or [decode_pack] with a callback that takes a fixed number of elements;
    the others are skipped, json/de/mod.rs:348-379. *)
Definition dec_tuple (ds : list (dec val)) (bs : bytes) : res (list val * bytes) :=
  let* r := expect KOBracket bs in
  let* (vs, r') := next_list ds true r in
  let* r'' := skip_rest (match ds with [] => true | _ => false end) r' in
  Ok (vs, r'').

(** [while let Some(entry) = map.decode_entry()? { .. }], json/de/object_decoder.rs:143-152 *)
Fixpoint obj_loop {S : Type} (fuel : nat) (step : S -> bytes -> res (S * bytes))
    (first : bool) (s : S) (bs : bytes) : res (S * bytes) :=
  match fuel with
  | O => Panic
  | Datatypes.S f =>
      let* (more, r) := next_key first bs in
      if more : bool then
        let* (s', r') := step s r in obj_loop f step false s' r'
      else Ok (s, r)
  end.

(** [decode_map], json/de/mod.rs:382-401 *)
Definition dec_object {S : Type} (step : S -> bytes -> res (S * bytes)) (s : S) (bs : bytes) :
    res (S * bytes) :=
  let* r := expect KOBrace bs in
  let* (s', r') := obj_loop (Datatypes.S (length r)) step true s r in
  let* r'' := skip_entries false r' in
  Ok (s', r'').

(** An integer in a key: [decode_escaped_bytes] with [KeyUnsignedVisitor] or
    [KeySignedVisitor], json/de/key_decoder.rs:35-46, 88-145, key_unsigned_visitor.rs:37-39, key_signed_visitor.rs. What follows the number inside
    the string is ignored. *)
Definition key_unsigned (oc : bool) (tb : N) : dec val :=
  fun bs => let* (s, r) := parse_string bs in
            let* (n, _) := parse_unsigned oc tb s in Ok (VN n, r).
Definition key_signed (oc : bool) (tb : N) : dec val :=
  fun bs => let* (s, r) := parse_string bs in
            let* (z, _) := parse_signed oc tb s in Ok (VZ z, r).

(** [T::decode] with a [JsonKeyDecoder], json/de/key_decoder.rs. The other methods report an
    unsupported type. *)
Fixpoint jkdec (p : plat) (oc : bool) (t : ty) {struct t} : dec val :=
  match t with
  | TU w => key_unsigned oc (bits w)
  | TI w => key_signed oc (bits w)
  | TUsize => key_unsigned oc (usize_bits p)
  | TIsize => key_signed oc (usize_bits p)
  (* impls/mod.rs:162-176 *)
  | TNonZero w =>
      fun bs => let* (v, r) := key_unsigned oc (bits w) bs in
                match v with VN 0 => Err | _ => Ok (v, r) end
  | TStr => fun bs => let* (s, r) := parse_string bs in Ok (VBytes s, r)
  | TBox t' => jkdec p oc t'
  (* musli-macros/src/de.rs:210-271 *)
  | TTag kt tags =>
      fun bs =>
        let* (k, r) := jkdec p oc kt bs in
        match find_name k tags with Some i => Ok (VVar i VUnit, r) | None => Err end
  | _ => fun _ => Err
  end.

(** [decode_u8] of each element, json/de/mod.rs:315-318 *)
Definition byte_step (oc : bool) (s : bytes) (bs : bytes) : res (bytes * bytes) :=
  let* (n, r) := parse_unsigned oc 8 bs in Ok (s ++ [n], r).

(** [decode_array], json/de/mod.rs:275-302: [if index <= N { bytes[index] = item.decode_u8()?; }]
    is out of bounds for [index = N]. [s] holds the elements so far. *)
Definition arr_step (oc : bool) (n : N) (s : bytes) (bs : bytes) : res (bytes * bytes) :=
  if lenN s <=? n then
    let* (b, r) := parse_unsigned oc 8 bs in
    if lenN s <? n then Ok (s ++ [b], r) else Panic
  else Err.

(** One entry of a derived struct, musli-macros/src/de.rs:1083-1368 *)
Definition jfield (dk : dec val) (names : list val) (ds : list (dec val))
    (s : slots) (bs : bytes) : res (slots * bytes) :=
  let* (k, r0) := dk bs in
  match find_name k names with
  | Some i =>
      match nth_error ds i with
      | Some d => let* r := expect KColon r0 in
                  let* (v, r') := d r in Ok (set_slot i v s, r')
      | None => Err
      end
  | None => let* r := expect KColon r0 in
            let* r' := skip_value r in Ok (s, r')
  end.

(** [T::decode] with a [JsonDecoder], json/de/mod.rs *)
Fixpoint jdec (p : plat) (oc : bool) (t : ty) {struct t} : dec val :=
  let un (tb : N) : dec val := fun bs => let* (n, r) := parse_unsigned oc tb bs in Ok (VN n, r) in
  let si (tb : N) : dec val := fun bs => let* (z, r) := parse_signed oc tb bs in Ok (VZ z, r) in
  let fl (F : raw_float) : dec val := fun bs => let* (n, r) := json_decode_float F bs in Ok (VN n, r) in
  match t with
  (* decode_empty, json/de/mod.rs:164-166 *)
  | TUnit => fun bs => let* r := skip_value bs in Ok (VUnit, r)
  (* decode_bool, json/de/mod.rs:169-183 *)
  | TBool =>
      fun bs =>
        let (k, r) := lex bs in
        match k with
        | KTrue => let* r' := parse_exact lit_true r in Ok (VBool true, r')
        | KFalse => let* r' := parse_exact lit_false r in Ok (VBool false, r')
        | _ => Err
        end
  | TChar => fun bs => let* (c, r) := decode_char bs in Ok (VN c, r)
  (* json/de/mod.rs:205-262 *)
  | TU w => un (bits w)
  | TI w => si (bits w)
  | TUsize => un (usize_bits p)
  | TIsize => si (usize_bits p)
  | TNonZero w =>
      fun bs => let* (n, r) := parse_unsigned oc (bits w) bs in
                if n =? 0 then Err else Ok (VN n, r)
  (* json/de/mod.rs:264-272; unlike the others, they do not skip whitespace *)
  | TF32 => fl F32
  | TF64 => fl F64
  (* decode_string, json/de/mod.rs:325-335 *)
  | TStr => fun bs => let* (s, r) := parse_string bs in Ok (VBytes s, r)
  (* decode_bytes, json/de/mod.rs:305-322 *)
  | TBytes => fun bs => let* (s, r) := dec_sequence (byte_step oc) [] bs in Ok (VBytes s, r)
  (* decode_array, json/de/mod.rs:275-302; fewer than [n] elements is an error. The check
     precedes the skipping of what remains, but nothing remains. *)
  | TArr n =>
      fun bs => let* (s, r) := dec_sequence (arr_step oc n) [] bs in
                if lenN s =? n then Ok (VBytes s, r) else Err
  (* decode_option, json/de/mod.rs:338-345; impls/mod.rs:684-692 *)
  | TOpt t' =>
      fun bs =>
        let (k, r) := lex bs in
        match k with
        | KNull => let* r' := parse_exact lit_null r in Ok (VNone, r')
        | _ => let* (v, r') := jdec p oc t' r in Ok (VSome v, r')
        end
  | TBox t' => jdec p oc t'
  (* default_decode_slice, musli-core/src/de/utils.rs:5-32 *)
  | TVec t' =>
      fun bs =>
        let* (vs, r) := dec_sequence (fun s bs => let* (v, r) := jdec p oc t' bs in
                                                  Ok (s ++ [v], r)) [] bs in
        Ok (VList vs, r)
  (* impls/mod.rs:244-269 *)
  | TArray n t' =>
      fun bs =>
        let* (vs, r) := dec_sequence (fun s bs => let* (v, r) := jdec p oc t' bs in
                                                  if lenN s <? n then Ok (s ++ [v], r) else Err)
                                     [] bs in
        if lenN vs =? n then Ok (VList vs, r) else Err
  (* impls/alloc.rs:330-345 *)
  | TSet t' =>
      fun bs =>
        let* (vs, r) := dec_sequence (fun s bs => let* (v, r) := jdec p oc t' bs in
                                                  Ok (set_insert v s, r)) [] bs in
        Ok (VList vs, r)
  (* impls/tuples.rs:85-96 *)
  | TTup ts =>
      let ds := map (jdec p oc) ts in
      fun bs => let* (vs, r) := dec_tuple ds bs in Ok (VList vs, r)
  (* musli-macros/src/de.rs:1426-1510; see [Storage.pack_field] about defaults *)
  | TPack _ fs =>
      let ds := map (fun ft => jdec p oc (snd ft)) fs in
      fun bs => let* (vs, r) := dec_tuple ds bs in Ok (VList vs, r)
  (* impls/alloc.rs:556-569 *)
  | TMap tk tv =>
      fun bs =>
        let* (kvs, r) := dec_object (fun s bs => let* (k, r0) := jkdec p oc tk bs in
                                                 let* r := expect KColon r0 in
                                                 let* (v, r') := jdec p oc tv r in
                                                 Ok (map_insert k v s, r')) [] bs in
        Ok (VMap kvs, r)
  (* musli-macros/src/de.rs:1083-1368; without fields de.rs:1033-1076 *)
  | TStruct kt fs =>
      let ds := map (fun ft => jdec p oc (snd ft)) fs in
      let names := map (fun ft => fname (fst ft)) fs in
      match fs with
      | [] => fun bs => let* r := expect KOBrace bs in
                        let* r' := skip_entries true r in Ok (VList [], r')
      | _ =>
          fun bs =>
            let* r := expect KOBrace bs in
            let* (s, r') := obj_loop (S (length r)) (jfield (jkdec p oc kt) names ds) true
                              (map (fun _ => None) fs) r in
            let* vs := fill (map fst fs) s in
            let* r'' := skip_entries false r' in
            Ok (VList vs, r'')
      end
  (* musli-macros/src/de.rs:210-271 *)
  | TTag kt tags =>
      fun bs =>
        let* (k, r) := jdec p oc kt bs in
        match find_name k tags with Some i => Ok (VVar i VUnit, r) | None => Err end
  (* decode_variant, json/de/mod.rs:412-420, json/de/variant_decoder.rs; impls/mod.rs:725-757 *)
  | TEnum _ kt vs =>
      let ds := map (fun tv => jdec p oc (snd tv)) vs in
      fun bs =>
        let* r0 := expect KOBrace bs in
        let* (k, r1) := jkdec p oc kt r0 in
        match find_name k (map fst vs) with
        | Some i =>
            match nth_error ds i with
            | Some d =>
                let* r2 := expect KColon r1 in
                let* (v, r3) := d r2 in
                let* r4 := expect KCBrace r3 in
                Ok (VVar i v, r4)
            | None => Err
            end
        | None => Err
        end
  end.

(** ** Encoding *)

Definition hex_digit (n : N) : N := if n <? 10 then 48 + n else 87 + n.

(** The table ESCAPE and [write_escape], json/en/mod.rs:348-413 *)
Definition escape_byte (b : N) : bytes :=
  if b =? 8 then [92; 98]
  else if b =? 9 then [92; 116]
  else if b =? 10 then [92; 110]
  else if b =? 12 then [92; 102]
  else if b =? 13 then [92; 114]
  else if b <? 32 then [92; 117; 48; 48; hex_digit (b / 16); hex_digit (b mod 16)]
  else if b =? 34 then [92; 34]
  else if b =? 92 then [92; 92]
  else [b].

(** [encode_string], json/en/mod.rs:314-346. The runs of unescaped bytes are written at once;
    what is written in total is the same. *)
Definition encode_string (s : bytes) : bytes := [34] ++ flat_map escape_byte s ++ [34].

Fixpoint comma_sep (l : list bytes) : bytes :=
  match l with
  | [] => []
  | [x] => x
  | x :: r => x ++ 44 :: comma_sep r
  end.

(** JsonArrayEncoder, json/en/array_encoder.rs:25-74 *)
Definition in_brackets (l : list bytes) : bytes := [91] ++ comma_sep l ++ [93].
(** JsonObjectEncoder, json/en/object_encoder.rs:24-75, object_pair_encoder.rs:52-69 *)
Definition in_braces (l : list bytes) : bytes := [123] ++ comma_sep l ++ [125].
Definition pair (k v : bytes) : bytes := k ++ 58 :: v.

(** Encode items one by one. *)
Fixpoint map_res {A B : Type} (f : A -> res B) (l : list A) : res (list B) :=
  match l with
  | [] => Ok []
  | x :: r => let* a := f x in let* b := map_res f r in Ok (a :: b)
  end.

Fixpoint zip_res (es : list (val -> res bytes)) (vs : list val) : res (list bytes) :=
  match es, vs with
  | [], [] => Ok []
  | e :: es', v :: vs' => let* a := e v in let* b := zip_res es' vs' in Ok (a :: b)
  | _, _ => Err
  end.

(** The entries of a derived struct, musli-macros/src/en.rs:219-233, 357-371 *)
Fixpoint jenc_fields (ek : val -> res bytes) (fs : list (finfo * (val -> res bytes)))
    (vs : list val) : res (list bytes) :=
  match fs, vs with
  | [], [] => Ok []
  | (f, e) :: fs', v :: vs' =>
      if fskip f v then jenc_fields ek fs' vs'
      else
        let* a := ek (fname f) in
        let* b := e v in
        let* c := jenc_fields ek fs' vs' in
        Ok (pair a b :: c)
  | _, _ => Err
  end.

Definition quoted (b : bytes) : bytes := [34] ++ b ++ [34].

(** [T::encode] with a [JsonObjectKeyEncoder], json/en/object_key_encoder.rs:24-127 *)
Fixpoint jkenc (p : plat) (t : ty) {struct t} : val -> res bytes :=
  match t with
  | TU _ | TUsize | TNonZero _ => fun v => match v with VN n => Ok (quoted (itoa n)) | _ => Err end
  | TI _ | TIsize => fun v => match v with VZ z => Ok (quoted (itoa_z z)) | _ => Err end
  | TStr => fun v => match v with VBytes s => Ok (encode_string s) | _ => Err end
  | TBox t' => jkenc p t'
  | TTag kt tags =>
      fun v => match v with
               | VVar i VUnit => match nth_error tags i with Some k => jkenc p kt k | None => Err end
               | _ => Err end
  | _ => fun _ => Err
  end.

(** [T::encode] with a [JsonEncoder], json/en/mod.rs:72-312 *)
Fixpoint jenc (p : plat) (t : ty) {struct t} : val -> res bytes :=
  let seq (e : val -> res bytes) (v : val) :=
    match v with
    | VList vs => let* l := map_res e vs in Ok (in_brackets l)
    | _ => Err
    end in
  match t with
  | TUnit => fun v => match v with VUnit => Ok lit_null | _ => Err end
  | TBool => fun v => match v with VBool b => Ok (if b then lit_true else lit_false) | _ => Err end
  | TChar => fun v => match v with VN c => Ok (encode_string (utf8_enc c)) | _ => Err end
  | TU _ | TUsize | TNonZero _ => fun v => match v with VN n => Ok (itoa n) | _ => Err end
  | TI _ | TIsize => fun v => match v with VZ z => Ok (itoa_z z) | _ => Err end
  (* json/en/mod.rs:183-195 *)
  | TF32 => fun v => match v with VN x => Ok (text_f32 x) | _ => Err end
  | TF64 => fun v => match v with VN x => Ok (text_f64 x) | _ => Err end
  | TStr => fun v => match v with VBytes s => Ok (encode_string s) | _ => Err end
  (* encode_bytes, encode_array, json/en/mod.rs:198-223 *)
  | TBytes | TArr _ => fun v => match v with VBytes s => Ok (in_brackets (map itoa s)) | _ => Err end
  | TOpt t' =>
      fun v => match v with
               | VNone => Ok lit_null
               | VSome x => jenc p t' x
               | _ => Err end
  | TBox t' => jenc p t'
  | TVec t' | TArray _ t' | TSet t' => seq (jenc p t')
  | TTup ts =>
      let es := map (jenc p) ts in
      fun v => match v with
               | VList vs => let* l := zip_res es vs in Ok (in_brackets l)
               | _ => Err end
  | TPack _ fs =>
      let es := map (fun ft => jenc p (snd ft)) fs in
      fun v => match v with
               | VList vs => let* l := zip_res es vs in Ok (in_brackets l)
               | _ => Err end
  | TMap tk tv =>
      fun v => match v with
               | VMap kvs =>
                   let* l := map_res (fun kv => let* a := jkenc p tk (fst kv) in
                                                let* b := jenc p tv (snd kv) in
                                                Ok (pair a b)) kvs in
                   Ok (in_braces l)
               | _ => Err end
  | TStruct kt fs =>
      let es := map (fun ft => (fst ft, jenc p (snd ft))) fs in
      fun v => match v with
               | VList vs => let* l := jenc_fields (jkenc p kt) es vs in Ok (in_braces l)
               | _ => Err end
  | TTag kt tags =>
      fun v => match v with
               | VVar i VUnit => match nth_error tags i with Some k => jenc p kt k | None => Err end
               | _ => Err end
  (* JsonVariantEncoder, json/en/variant_encoder.rs:22-70 *)
  | TEnum _ kt vs =>
      let es := map (fun tv => (fst tv, jenc p (snd tv))) vs in
      fun v => match v with
               | VVar i x =>
                   match nth_error es i with
                   | Some (k, e) =>
                       let* a := jkenc p kt k in
                       let* b := e x in
                       Ok (in_braces [pair a b])
                   | None => Err
                   end
               | _ => Err end
  end.

(** ** The API *)

(** json::to_string, json::to_vec, json::from_slice, json::from_str: crates/musli/src/json/encoding.rs.
    What follows the value is not looked at. *)
Definition json_encode (p : plat) (t : ty) (v : val) : res bytes := jenc p t v.
Definition json_decode (p : plat) (oc : bool) (t : ty) : dec val := jdec p oc t.
