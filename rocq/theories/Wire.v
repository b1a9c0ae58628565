(** Model of crates/musli/src/wire: tag.rs, int.rs, en.rs, de.rs. *)
From Verif Require Import Base Options Int Utf8 Types Storage Fmt.
Local Open Scope N_scope.

(** ** Tags *)

(** [Kind], wire/tag.rs:14-33 *)
Inductive wkind := Reserved | Prefix | Sequence | Continuation.

Definition wkind_byte (k : wkind) : N :=
  match k with Reserved => 0 | Prefix => 64 | Sequence => 128 | Continuation => 192 end.

(** [DATA_MASK], wire/tag.rs:12 *)
Definition WDATA_MASK : N := 63.

(** [Tag::new(..).byte()], wire/tag.rs:56-63. The [debug_assert!] on [data] is modelled
    where it can fail, in [encode_length]. *)
Definition wtag (k : wkind) (data : N) : N := N.lor (wkind_byte k) data.

(** [Tag::kind], wire/tag.rs:86-90: [repr & !DATA_MASK] *)
Definition wtag_kind (b : N) : wkind :=
  match N.land b 192 with
  | 0 => Reserved
  | 64 => Prefix
  | 128 => Sequence
  | _ => Continuation
  end.

Definition wkind_eqb (a b : wkind) : bool := wkind_byte a =? wkind_byte b.

(** [Tag::data], wire/tag.rs:102-110 *)
Definition wtag_data (b : N) : option N :=
  let d := N.land b WDATA_MASK in
  if d =? WDATA_MASK then None else Some d.

(** [Tag::with_len] and the length that follows if it is not embedded, wire/tag.rs:116-123;
    used by encode_sequence_len (wire/en.rs:57-66) and encode_prefix (wire/en.rs:547-562) *)
Definition wlen_enc (p : plat) (o : N) (k : wkind) (len : N) : res bytes :=
  if len <? WDATA_MASK then Ok [wtag k len]
  else let* l := encode_usize p o len in Ok (wtag k WDATA_MASK :: l).

(** decode_sequence_len (wire/de.rs:109-124) and decode_len (wire/de.rs:143-156) *)
Definition wlen_dec (p : plat) (o : N) (k : wkind) : dec N :=
  fun bs =>
    let* (b, r) := read_byte bs in
    if wkind_eqb (wtag_kind b) k then
      match wtag_data b with
      | Some n => Ok (n, r)
      | None => decode_usize p o r
      end
    else Err.

(** encode_map_len, wire/en.rs:41-54 *)
Definition wmap_enc (p : plat) (o : N) (len : N) : res bytes :=
  if 2 * len <? 2 ^ usize_bits p then wlen_enc p o Sequence (2 * len) else Err.

(** shared_decode_pair_sequence, wire/de.rs:127-133 *)
Definition wmap_dec (p : plat) (o : N) : dec N :=
  fun bs => let* (n, r) := wlen_dec p o Sequence bs in Ok (n / 2, r).

(** ** Integers *)

(** A variable-width integer: embedded in the tag if it is smaller than 63, otherwise an empty
    continuation tag and the continuation encoding, wire/int.rs:20-27, 110-117 *)
Definition wvar_enc (v : N) : bytes :=
  if v <? WDATA_MASK then [wtag Continuation v]
  else wtag Continuation WDATA_MASK :: cont_encode v.

(** wire/int.rs:58-70, 139-151. [from_byte] is the zero extension. *)
Definition wvar_dec (tbits : N) : dec N :=
  fun bs =>
    let* (b, r) := read_byte bs in
    if wkind_eqb (wtag_kind b) Continuation then
      match wtag_data b with
      | Some n => Ok (n, r)
      | None => cont_decode tbits r
      end
    else Err.

(** [encode_unsigned], wire/int.rs:100-124 *)
Definition wunsigned_enc (p : plat) (o : N) (w : iw) (v : N) : bytes :=
  match integer_value o with
  | IVariable => wvar_enc v
  | IFixed => wtag Prefix (N.of_nat (nbytes w)) :: write_int p (byteorder_value o) (nbytes w) v
  end.

(** [decode_unsigned], wire/int.rs:128-162 *)
Definition wunsigned_dec (p : plat) (o : N) (w : iw) : dec N :=
  match integer_value o with
  | IVariable => wvar_dec (bits w)
  | IFixed =>
      fun bs =>
        let* (b, r) := read_byte bs in
        if b =? wtag Prefix (N.of_nat (nbytes w)) then read_int p (byteorder_value o) (nbytes w) r
        else Err
  end.

(** [encode_signed], wire/int.rs:166-179 *)
Definition wsigned_enc (p : plat) (o : N) (w : iw) (z : Z) : bytes :=
  wunsigned_enc p o w (zig_encode (bits w) z).

(** [decode_signed], wire/int.rs:183-198 *)
Definition wsigned_dec (p : plat) (o : N) (w : iw) : dec Z :=
  fun bs => let* (n, r) := wunsigned_dec p o w bs in Ok (zig_decode (bits w) n, r).

(** [Width as u8], options.rs:447-467 *)
Definition width_disc (w : Width) : N :=
  match w with
  | WVariable => 0 | WU8 => 1 | WU16 => 2 | WU32 => 3 | WU64 => 4
  | WPad0 => 5 | WPad1 => 6 | WPad2 => 7
  end.

(** [encode_length], wire/int.rs:10-45. The tag announces [1u8 << width as u8] bytes; the
    padding values of [Width], which no options builder produces, fail the
    [debug_assert!] of [Tag::new] for announcing more than 63. *)
Definition encode_length (p : plat) (o : N) (v : N) : res bytes :=
  match length_value o with
  | WVariable => Ok (wvar_enc v)
  | w =>
      let n := 2 ^ width_disc w in
      if n <=? WDATA_MASK then
        let i := width_int w in
        if v <? 2 ^ bits i then
          Ok (wtag Prefix n :: write_int p (byteorder_value o) (nbytes i) v)
        else Err
      else Panic
  end.

(** [decode_length], wire/int.rs:49-96 *)
Definition decode_length (p : plat) (o : N) : dec N :=
  match length_value o with
  | WVariable => wvar_dec (usize_bits p)
  | w =>
      let n := 2 ^ width_disc w in
      fun bs =>
        let* (b, r) := read_byte bs in
        if n <=? WDATA_MASK then
          if b =? wtag Prefix n then
            let* (v, r') := read_int p (byteorder_value o) (nbytes (width_int w)) r in
            if v <? 2 ^ usize_bits p then Ok (v, r') else Err
          else Err
        else Panic
  end.

(** ** Skipping *)

(** One round of the loop of [skip_any], wire/de.rs:65-107, after the decrement: the number of
    values that are left to skip and the rest of the input. [remaining += len] panics on
    overflow in builds with overflow checks. *)
Definition wskip_step (p : plat) (o : N) (remaining : N) : dec N :=
  fun bs =>
    let* (b, r) := read_byte bs in
    let len :=
      match wtag_data b with
      | Some n => Ok (n, r)
      | None => decode_usize p o r
      end in
    match wtag_kind b with
    | Prefix =>
        let* (n, r') := len in
        let* (_, r'') := read_bytes n r' in
        Ok (remaining, r'')
    | Sequence =>
        let* (n, r') := len in
        if remaining + n <? 2 ^ usize_bits p then Ok (remaining + n, r') else Panic
    | Continuation =>
        match wtag_data b with
        | Some _ => Ok (remaining, r)
        | None => let* (_, r') := cont_decode 128 r in Ok (remaining, r')
        end
    | Reserved => Err
    end.

(** [while remaining > 0]: every round reads at least one byte, so one round per byte of input
    is enough; a round without input fails. *)
Fixpoint wskip_loop (fuel : nat) (p : plat) (o : N) (remaining : N) (bs : bytes)
    : res (unit * bytes) :=
  if remaining =? 0 then Ok (tt, bs)
  else
    match fuel with
    | O => Err
    | S f =>
        let* (rem, r) := wskip_step p o (remaining - 1) bs in
        wskip_loop f p o rem r
    end.

(** [skip_any], started with [remaining] values to skip; [skip] starts with one *)
Definition wskip_n (p : plat) (o : N) (remaining : N) : dec unit :=
  fun bs => wskip_loop (length bs) p o remaining bs.

Definition wskip (p : plat) (o : N) : dec unit := wskip_n p o 1.

(** skip_sequence_remaining, wire/de.rs:187-197: skip every element that remains *)
Definition wskip_rest (p : plat) (o : N) (n : N) : dec unit :=
  fun bs => iterN n (fun s => wskip p o (snd s)) (tt, bs).

(** ** Leaves *)

(** The methods of [WireEncoder] for values without components, wire/en.rs:134-275 *)
Definition wleaf_enc (p : plat) (o : N) (t : ty) : val -> res bytes :=
  match t with
  (* encode_empty, wire/en.rs:134-138 *)
  | TUnit => fun v => match v with VUnit => Ok [wtag Sequence 0] | _ => Err end
  (* encode_bool, wire/en.rs:177-182 *)
  | TBool => fun v => match v with VBool b => Ok [wtag Continuation (if b then 1 else 0)] | _ => Err end
  (* encode_char, wire/en.rs:185-187 *)
  | TChar => fun v => match v with VN c => Ok (wunsigned_enc p o W32 c) | _ => Err end
  (* wire/en.rs:190-212; impls/mod.rs:141-146 *)
  | TU w | TNonZero w => fun v => match v with VN n => Ok (wunsigned_enc p o w n) | _ => Err end
  (* wire/en.rs:215-237 *)
  | TI W8 => fun v => match v with VZ z => Ok (wunsigned_enc p o W8 (to_u 8 z)) | _ => Err end
  | TI w => fun v => match v with VZ z => Ok (wsigned_enc p o w z) | _ => Err end
  (* wire/en.rs:240-247 *)
  | TF32 => fun v => match v with VN n => Ok (wunsigned_enc p o W32 n) | _ => Err end
  | TF64 => fun v => match v with VN n => Ok (wunsigned_enc p o W64 n) | _ => Err end
  (* wire/en.rs:250-261 *)
  | TUsize => fun v => match v with VN n => encode_length p o n | _ => Err end
  | TIsize => fun v => match v with VZ z => encode_length p o (to_u (usize_bits p) z) | _ => Err end
  (* encode_array, encode_bytes, encode_string, wire/en.rs:146-174 *)
  | TStr | TBytes | TArr _ =>
      fun v => match v with
               | VBytes bs => let* l := wlen_enc p o Prefix (lenN bs) in Ok (l ++ bs)
               | _ => Err end
  | _ => fun _ => Err
  end.

(** The methods of [WireDecoder] for values without components, wire/de.rs:260-450 *)
Definition wleaf_dec (p : plat) (o : N) (t : ty) : dec val :=
  let num (d : dec N) : dec val := fun bs => let* (n, r) := d bs in Ok (VN n, r) in
  let pre : dec bytes := fun bs => let* (n, r) := wlen_dec p o Prefix bs in read_bytes n r in
  match t with
  (* decode_empty, wire/de.rs:260-262 *)
  | TUnit => fun bs => let* (_, r) := wskip p o bs in Ok (VUnit, r)
  (* decode_bool, wire/de.rs:352-363 *)
  | TBool => fun bs => let* (b, r) := read_byte bs in
                       if b =? wtag Continuation 0 then Ok (VBool false, r)
                       else if b =? wtag Continuation 1 then Ok (VBool true, r)
                       else Err
  (* decode_char, wire/de.rs:366-374 *)
  | TChar => fun bs => let* (n, r) := wunsigned_dec p o W32 bs in
                       if char_valid n then Ok (VN n, r) else Err
  (* wire/de.rs:377-399 *)
  | TU w => num (wunsigned_dec p o w)
  (* wire/de.rs:402-424 *)
  | TI W8 => fun bs => let* (n, r) := wunsigned_dec p o W8 bs in Ok (VZ (to_s 8 n), r)
  | TI w => fun bs => let* (z, r) := wsigned_dec p o w bs in Ok (VZ z, r)
  (* wire/de.rs:429-440 *)
  | TF32 => num (wunsigned_dec p o W32)
  | TF64 => num (wunsigned_dec p o W64)
  (* wire/de.rs:443-450 *)
  | TUsize => num (decode_length p o)
  | TIsize => fun bs => let* (n, r) := decode_length p o bs in Ok (VZ (to_s (usize_bits p) n), r)
  (* impls/mod.rs:162-176 *)
  | TNonZero w => fun bs => let* (n, r) := wunsigned_dec p o w bs in
                            if n =? 0 then Err else Ok (VN n, r)
  (* decode_string, decode_bytes, wire/de.rs:296-349 *)
  | TStr => fun bs => let* (h, r) := pre bs in if utf8_valid h then Ok (VBytes h, r) else Err
  | TBytes => fun bs => let* (h, r) := pre bs in Ok (VBytes h, r)
  (* decode_array, wire/de.rs:278-293 *)
  | TArr n => fun bs => let* (m, r) := wlen_dec p o Prefix bs in
                        if m =? n then let* (h, r') := read_bytes n r in Ok (VBytes h, r') else Err
  | _ => fun _ => Err
  end.

(** [WireEncoder] and [WireDecoder] *)
Definition wire (p : plat) (o : N) : fmt := {|
  f_leaf_enc := wleaf_enc p o;
  f_leaf_dec := wleaf_dec p o;
  f_seq_enc := wlen_enc p o Sequence;
  f_seq_dec := wlen_dec p o Sequence;
  f_map_enc := wmap_enc p o;
  f_map_dec := wmap_dec p o;
  (* wire/en.rs:264-275, wire/de.rs:453-465 *)
  f_none := [wtag Sequence 0];
  f_some := [wtag Sequence 1];
  f_opt_dec := fun bs => let* (b, r) := read_byte bs in
                         if b =? wtag Sequence 0 then Ok (false, r)
                         else if b =? wtag Sequence 1 then Ok (true, r) else Err;
  (* wire/en.rs:300-304, wire/de.rs:514-529 *)
  f_var := [wtag Sequence 2];
  f_var_dec := fun bs => let* (b, r) := read_byte bs in
                         if b =? wtag Sequence 2 then Ok (tt, r) else Err;
  f_pack_enc := wlen_enc p o Prefix;
  f_pack_dec := wlen_dec p o Prefix;
  f_skip := wskip p o;
  f_skip_rest := wskip_rest p o
|}.

(** ** The API: wire::encode, wire::decode, macros/internal.rs:800-960 *)
Definition wire_encode (p : plat) (o : N) : ty -> val -> res bytes := genc (wire p o) p o.
Definition wire_decode (p : plat) (o : N) : ty -> dec val := gdec (wire p o) p o.
(** [Decoder::skip], wire/de.rs:249-251 *)
Definition wire_skip (p : plat) (o : N) : dec unit := wskip p o.
(** wire/encoding.rs:23 *)
Definition WIRE_OPTIONS : N := opt_new.
