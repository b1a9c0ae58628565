(** Model of crates/musli/src/value: dynamic values and the encoder and decoder over them.

    Not modelled: failure of the allocator that holds the value; [type_hint.rs] and
    error messages. *)
From Verif Require Import Base Options Int Utf8 Types Storage Fmt.
Local Open Scope N_scope.

(** [Number], value/value.rs:160-192. Floats are their bit patterns. *)
Inductive number :=
| NU (w : iw) (n : N)
| NI (w : iw) (z : Z)
| NUsize (n : N)
| NIsize (z : Z)
| NF32 (bits : N)
| NF64 (bits : N).

(** [Value], value/value.rs:23-47 *)
Inductive value :=
| UUnit
| UBool (b : bool)
| UChar (c : N)
| UNum (n : number)
| UBytes (bs : bytes)
| UStr (bs : bytes)
| USeq (vs : list value)
| UMap (kvs : list (value * value))
| UVariant (tag body : value)
| UOpt (v : option value).

(** ** Encoding *)

(** What an encoder leaves in the place it writes to: [ValueOutput::write] is called
    at most once, and [encode_empty] (value/en.rs:126-129) does not call it. [None]: nothing was
    written. *)
Definition sink := option value.

(** A place that holds [Value::Unit] before: [value::encode], the halves of a pair or a
    variant, value/mod.rs:54, en.rs:610-618, 689-697 *)
Definition in_place (w : sink) : value := match w with Some x => x | None => UUnit end.

(** [impl ValueOutput for &mut Vec<Value>], value/en.rs:39-50: one more element, if anything
    is written *)
Definition pushed (ws : list sink) : list value :=
  flat_map (fun w => match w with Some x => [x] | None => [] end) ws.

(** [SomeValueWriter], value/en.rs:57-71 *)
Definition wrapped (w : sink) : sink :=
  match w with Some x => Some (UOpt (Some x)) | None => None end.

Fixpoint list_res {A} (xs : list (res A)) : res (list A) :=
  match xs with
  | [] => Ok []
  | x :: t => let* a := x in let* r := list_res t in Ok (a :: r)
  end.

(** [enc_list] of Types.v with values for results *)
Fixpoint venc_list (es : list (val -> res sink)) (vs : list val) : res (list sink) :=
  match es, vs with
  | [], [] => Ok []
  | e :: es', v :: vs' => let* a := e v in let* b := venc_list es' vs' in Ok (a :: b)
  | _, _ => Err
  end.

(** The fields of a derived struct, musli-macros/src/en.rs:357-371; PairValueEncoder,
    value/en.rs:587-650 *)
Fixpoint venc_fields (ek : val -> res sink) (fs : list (finfo * (val -> res sink)))
    (vs : list val) : res (list (value * value)) :=
  match fs, vs with
  | [], [] => Ok []
  | (f, e) :: fs', v :: vs' =>
      if fskip f v then venc_fields ek fs' vs'
      else
        let* a := ek (fname f) in
        let* b := e v in
        let* c := venc_fields ek fs' vs' in
        Ok ((in_place a, in_place b) :: c)
  | _, _ => Err
  end.

(** Leaves, value/en.rs:126-263; impls/mod.rs:141-146 for NonZero *)
Definition vleaf_enc (t : ty) (v : val) : res sink :=
  match t, v with
  | TUnit, VUnit => Ok None
  | TBool, VBool b => Ok (Some (UBool b))
  | TChar, VN c => Ok (Some (UChar c))
  | (TU w | TNonZero w), VN n => Ok (Some (UNum (NU w n)))
  | TI w, VZ z => Ok (Some (UNum (NI w z)))
  | TUsize, VN n => Ok (Some (UNum (NUsize n)))
  | TIsize, VZ z => Ok (Some (UNum (NIsize z)))
  | TF32, VN n => Ok (Some (UNum (NF32 n)))
  | TF64, VN n => Ok (Some (UNum (NF64 n)))
  | TStr, VBytes bs => Ok (Some (UStr bs))
  | (TBytes | TArr _), VBytes bs => Ok (Some (UBytes bs))
  | _, _ => Err
  end.

(** [T::encode] with a [ValueEncoder<OPT, ..>], value/en.rs:88-343. The fast path is not
    supported by this encoder (en/encoder.rs try_fast_encode). *)
Fixpoint venc (p : plat) (o : N) (t : ty) {struct t} : val -> res sink :=
  let seq (e : val -> res sink) (v : val) :=
    match v with
    | VList vs => let* ws := list_res (map e vs) in Ok (Some (USeq (pushed ws)))
    | _ => Err
    end in
  match t with
  (* impls/mod.rs:660-668; value/en.rs:266-280 *)
  | TOpt t' =>
      fun v => match v with
               | VNone => Ok (Some (UOpt None))
               | VSome x => let* w := venc p o t' x in Ok (wrapped w)
               | _ => Err end
  | TBox t' => venc p o t'
  (* en/utils.rs:7-24, impls/alloc.rs:290-310; value/en.rs:395-404 *)
  | TVec t' | TArray _ t' | TSet t' => seq (venc p o t')
  (* impls/tuples.rs:54-64 *)
  | TTup ts =>
      let es := map (venc p o) ts in
      fun v => match v with
               | VList vs => let* ws := venc_list es vs in Ok (Some (USeq (pushed ws)))
               | _ => Err end
  (* impls/alloc.rs:492-506; value/en.rs:517-527, 610-650 *)
  | TMap tk tv =>
      fun v => match v with
               | VMap kvs =>
                   let* es := list_res (map (fun kv => let* a := venc p o tk (fst kv) in
                                                       let* b := venc p o tv (snd kv) in
                                                       Ok (in_place a, in_place b)) kvs) in
                   Ok (Some (UMap es))
               | _ => Err end
  (* value/en.rs:413-477: the fields go through the storage encoder *)
  | TPack _ fs =>
      fun v => match v with
               | VList vs => let* b := pack_body p o fs vs in Ok (Some (UBytes b))
               | _ => Err end
  | TStruct kt fs =>
      let ek := venc p o kt in
      let es := map (fun ft => (fst ft, venc p o (snd ft))) fs in
      fun v => match v with
               | VList vs => let* es := venc_fields ek es vs in Ok (Some (UMap es))
               | _ => Err end
  | TTag kt tags =>
      fun v => match v with
               | VVar i VUnit =>
                   match nth_error tags i with Some k => venc p o kt k | None => Err end
               | _ => Err end
  (* value/en.rs:676-726 *)
  | TEnum _ kt vs =>
      let es := map (fun tv => (fst tv, venc p o (snd tv))) vs in
      fun v => match v with
               | VVar i x =>
                   match nth_error es i with
                   | Some (k, e) =>
                       let* a := venc p o kt k in
                       let* b := e x in
                       Ok (Some (UVariant (in_place a) (in_place b)))
                   | None => Err
                   end
               | _ => Err end
  | _ => vleaf_enc t
  end.

(** ** Decoding *)

(** [x as $ty] for a float: rounds towards zero, saturates, NaN is 0. [mb]: bits of the
    mantissa, [eb]: bits of the exponent. [None]: NaN or an infinity, with its sign. *)
Definition float_trunc (mb eb : N) (b : N) : Z + bool :=
  let m := b mod 2 ^ mb in
  let e := (b / 2 ^ mb) mod 2 ^ eb in
  let neg := N.testbit b (mb + eb) in
  let bias := (2 ^ (eb - 1) - 1) in
  if e =? 2 ^ eb - 1 then
    if m =? 0 then inr neg else inl 0%Z
  else
    let a := if e <? bias then 0 else (2 ^ mb + m) * 2 ^ (e - bias) / 2 ^ mb in
    inl (if neg then - Z.of_N a else Z.of_N a)%Z.

(** Least and greatest values of an integer type *)
Definition int_min (signed : bool) (b : N) : Z := if signed then (- 2 ^ (Z.of_N b - 1))%Z else 0%Z.
Definition int_max (signed : bool) (b : N) : Z :=
  if signed then (2 ^ (Z.of_N b - 1) - 1)%Z else (2 ^ Z.of_N b - 1)%Z.
Definition int_fits (signed : bool) (b : N) (z : Z) : bool :=
  ((int_min signed b <=? z) && (z <=? int_max signed b))%Z.

Definition saturate (signed : bool) (b : N) (x : Z + bool) : Z :=
  match x with
  | inl z => Z.max (int_min signed b) (Z.min z (int_max signed b))
  | inr true => int_min signed b
  | inr false => int_max signed b
  end.

(** [integer_from!], value/de.rs:719-760 *)
Definition from_number (signed : bool) (b : N) (n : number) : option Z :=
  let fit z := if int_fits signed b z then Some z else None in
  match n with
  | NU _ x | NUsize x => fit (Z.of_N x)
  | NI _ z | NIsize z => fit z
  | NF32 x => Some (saturate signed b (float_trunc 23 8 x))
  | NF64 x => Some (saturate signed b (float_trunc 52 11 x))
  end.

(** [str::parse] for integers: an optional sign ([-] only for signed types) and at least one
    digit, in range *)
Fixpoint digits (acc : Z) (s : bytes) : option Z :=
  match s with
  | [] => Some acc
  | c :: r => if (48 <=? c) && (c <=? 57) then digits (10 * acc + (Z.of_N c - 48)) r else None
  end.

Definition parse_int (signed : bool) (b : N) (s : bytes) : option Z :=
  let body (f : Z -> Z) (r : bytes) :=
    match r with
    | [] => None
    | _ => match digits 0 r with
           | Some z => if int_fits signed b (f z) then Some (f z) else None
           | None => None
           end
    end in
  match s with
  | 43 :: r => body (fun z => z) r
  | 45 :: r => if signed then body Z.opp r else None
  | _ => body (fun z => z) s
  end.

(** [ensure_number!], value/de.rs:60-80. [key]: the decoder is for the key of an entry
    (value/de.rs:52-60) and the options read strings as numbers there. *)
Definition as_int (key signed : bool) (b : N) (x : value) : res Z :=
  match x with
  | UNum n => match from_number signed b n with Some z => Ok z | None => Err end
  | UStr s => if key then match parse_int signed b s with Some z => Ok z | None => Err end else Err
  | _ => Err
  end.

(** Decode the elements of a list one by one, giving up at the first error *)
Fixpoint vdec_each (d : value -> res val) (xs : list value) : res (list val) :=
  match xs with
  | [] => Ok []
  | x :: r => let* v := d x in let* vs := vdec_each d r in Ok (v :: vs)
  end.

(** decode_next for every component, value/de.rs:461-467: elements that are left over are ignored *)
Fixpoint vdec_list (ds : list (value -> res val)) (xs : list value) : res (list val) :=
  match ds with
  | [] => Ok []
  | d :: ds' =>
      match xs with
      | [] => Err
      | x :: xs' => let* v := d x in let* vs := vdec_list ds' xs' in Ok (v :: vs)
      end
  end.

(** One entry of a struct, musli-macros/src/de.rs:1083-1368; an unknown one is skipped
    (value/de.rs:129-136) *)
Definition vdec_field (dk : value -> res val) (names : list val) (ds : list (value -> res val))
    (s : slots) (kv : value * value) : res slots :=
  let* k := dk (fst kv) in
  match find_name k names with
  | Some i =>
      match nth_error ds i with
      | Some d => let* v := d (snd kv) in Ok (set_slot i v s)
      | None => Err
      end
  | None => Ok s
  end.

(** A loop over entries with a state *)
Fixpoint vfold {S A} (f : S -> A -> res S) (s : S) (xs : list A) : res S :=
  match xs with
  | [] => Ok s
  | x :: r => let* s' := f s x in vfold f s' r
  end.

(** Leaves, value/de.rs:144-266; impls/mod.rs:162-176 for NonZero *)
Definition vleaf_dec (p : plat) (key : bool) (t : ty) (x : value) : res val :=
  let unsigned b := let* z := as_int key false b x in Ok (VN (Z.to_N z)) in
  let signed b := let* z := as_int key true b x in Ok (VZ z) in
  match t with
  | TUnit => match x with UUnit => Ok VUnit | _ => Err end
  | TBool => match x with UBool b => Ok (VBool b) | _ => Err end
  | TChar => match x with UChar c => Ok (VN c) | _ => Err end
  | TU w => unsigned (bits w)
  | TI w => signed (bits w)
  | TUsize => unsigned (usize_bits p)
  | TIsize => signed (usize_bits p)
  | TF32 => match x with UNum (NF32 n) => Ok (VN n) | _ => Err end
  | TF64 => match x with UNum (NF64 n) => Ok (VN n) | _ => Err end
  | TNonZero w =>
      let* z := as_int key false (bits w) x in
      if (z =? 0)%Z then Err else Ok (VN (Z.to_N z))
  | TStr => match x with UStr bs => Ok (VBytes bs) | _ => Err end
  | TBytes => match x with UBytes bs => Ok (VBytes bs) | _ => Err end
  | TArr n => match x with UBytes bs => if lenN bs =? n then Ok (VBytes bs) else Err | _ => Err end
  | _ => Err
  end.

(** [T::decode] with a [ValueDecoder<OPT, ..>], value/de.rs:92-345. [keys]: the option to read
    strings as numbers in keys; [key]: the value is a key. *)
Fixpoint vdec (p : plat) (o : N) (keys key : bool) (t : ty) {struct t} : value -> res val :=
  match t with
  (* decode_option, value/de.rs:268-273: what is inside is no longer a key *)
  | TOpt t' =>
      fun x => match x with
               | UOpt None => Ok VNone
               | UOpt (Some y) => let* v := vdec p o keys false t' y in Ok (VSome v)
               | _ => Err end
  | TBox t' => vdec p o keys key t'
  (* de/utils.rs:5-32; value/de.rs:285-303 *)
  | TVec t' =>
      fun x => match x with
               | USeq xs => let* vs := vdec_each (vdec p o keys false t') xs in Ok (VList vs)
               | _ => Err end
  (* impls/mod.rs:244-269: element [n + 1] is decoded before it is rejected *)
  | TArray n t' =>
      fun x => match x with
               | USeq xs =>
                   let* vs := vdec_each (vdec p o keys false t') (firstn (N.to_nat (N.min (lenN xs) (n + 1))) xs) in
                   if lenN xs =? n then Ok (VList vs) else Err
               | _ => Err end
  (* impls/alloc.rs:330-345 *)
  | TSet t' =>
      fun x => match x with
               | USeq xs =>
                   let* vs := vfold (fun s x => let* v := vdec p o keys false t' x in
                                                Ok (set_insert v s)) [] xs in
                   Ok (VList vs)
               | _ => Err end
  (* impls/tuples.rs:85-96 *)
  | TTup ts =>
      let ds := map (vdec p o keys false) ts in
      fun x => match x with
               | USeq xs => let* vs := vdec_list ds xs in Ok (VList vs)
               | _ => Err end
  (* impls/alloc.rs:556-569; value/de.rs:573-588 *)
  | TMap tk tv =>
      fun x => match x with
               | UMap es =>
                   let* kvs := vfold (fun s e => let* k := vdec p o keys keys tk (fst e) in
                                                 let* v := vdec p o keys false tv (snd e) in
                                                 Ok (map_insert k v s)) [] es in
                   Ok (VMap kvs)
               | _ => Err end
  (* decode_pack, value/de.rs:275-283: bytes that are left over are ignored *)
  | TPack _ fs =>
      let ds := map (fun ft => pack_field (fst ft) (dec_ p o true (snd ft))) fs in
      fun x => match x with
               | UBytes bs => let* (vs, _) := dec_list ds bs in Ok (VList vs)
               | _ => Err end
  (* musli-macros/src/de.rs:1083-1368; without fields the entries are ignored, de.rs:1033-1076 *)
  | TStruct kt fs =>
      let ds := map (fun ft => vdec p o keys false (snd ft)) fs in
      let names := map (fun ft => fname (fst ft)) fs in
      fun x => match x with
               | UMap es =>
                   match fs with
                   | [] => Ok (VList [])
                   | _ =>
                       let* s := vfold (vdec_field (vdec p o keys keys kt) names ds) (map (fun _ => None) fs) es in
                       let* vs := fill (map fst fs) s in
                       Ok (VList vs)
                   end
               | _ => Err end
  (* musli-macros/src/de.rs:210-271 *)
  | TTag kt tags =>
      fun x => let* k := vdec p o keys key kt x in
               match find_name k tags with Some i => Ok (VVar i VUnit) | None => Err end
  (* decode_variant, value/de.rs:322-332, 690-703 *)
  | TEnum _ kt vs =>
      let ds := map (fun tv => vdec p o keys false (snd tv)) vs in
      fun x => match x with
               | UVariant tag body =>
                   let* k := vdec p o keys false kt tag in
                   match find_name k (map fst vs) with
                   | Some i =>
                       match nth_error ds i with
                       | Some d => let* v := d body in Ok (VVar i v)
                       | None => Err
                       end
                   | None => Err
                   end
               | _ => Err end
  | _ => vleaf_dec p key t
  end.

(** ** The API: value::encode, value::decode, value/mod.rs:41-79 *)
Definition VALUE_OPTIONS : N := opt_new.
Definition value_encode (p : plat) (t : ty) (v : val) : res value :=
  let* w := venc p VALUE_OPTIONS t v in Ok (in_place w).
Definition value_decode (p : plat) (t : ty) : value -> res val := vdec p VALUE_OPTIONS false false t.
