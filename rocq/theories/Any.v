(** Model of dynamic values in the formats: writing a [Value] with any encoder and reading one from
    the descriptive format, which [decode_buffer] does too. *)
From Verif Require Import Base Options Int Utf8 Types Storage Fmt Wire Desc Value.
Local Open Scope N_scope.

(** ** Writing *)

(** [impl Encode for Number], value/value.rs:223-251 *)
Definition num_enc (F : fmt) (n : number) : res bytes :=
  match n with
  | NU w x => f_leaf_enc F (TU w) (VN x)
  | NI w z => f_leaf_enc F (TI w) (VZ z)
  | NUsize x => f_leaf_enc F TUsize (VN x)
  | NIsize z => f_leaf_enc F TIsize (VZ z)
  | NF32 x => f_leaf_enc F TF32 (VN x)
  | NF64 x => f_leaf_enc F TF64 (VN x)
  end.

(** [concat_res] in a form that allows for recursion through it *)
Definition concat_in {A} (f : A -> res bytes) : list A -> res bytes :=
  fix go l :=
    match l with
    | [] => Ok []
    | x :: r => let* a := f x in let* b := go r in Ok (a ++ b)
    end.

(** [impl Encode for Value], value/value.rs:511-559, with an encoder of the wire or
    descriptive format *)
Fixpoint uenc (F : fmt) (x : value) {struct x} : res bytes :=
  match x with
  | UUnit => f_leaf_enc F TUnit VUnit
  | UBool b => f_leaf_enc F TBool (VBool b)
  | UChar c => f_leaf_enc F TChar (VN c)
  | UNum n => num_enc F n
  | UBytes bs => f_leaf_enc F TBytes (VBytes bs)
  | UStr bs => f_leaf_enc F TStr (VBytes bs)
  | USeq xs =>
      let* l := f_seq_enc F (lenN xs) in
      let* b := concat_in (uenc F) xs in
      Ok (l ++ b)
  | UMap es =>
      let* l := f_map_enc F (lenN es) in
      let* b := concat_in (fun '(k, y) => let* a := uenc F k in
                                           let* b := uenc F y in
                                           Ok (a ++ b)) es in
      Ok (l ++ b)
  | UVariant a b =>
      let* a := uenc F a in let* b := uenc F b in Ok (f_var F ++ a ++ b)
  | UOpt None => Ok (f_none F)
  | UOpt (Some y) => let* b := uenc F y in Ok (f_some F ++ b)
  end.

(** ** Reading *)

(** [n] values one after the other: the loops of [visit_sequence] and [visit_map],
    value/value.rs:386-427 *)
Definition any_count {A} (n : N) (d : dec A) : dec (list A) :=
  fun bs =>
    let* (acc, r) :=
      iterN n (fun s => let* (x, r) := d (snd s) in Ok (x :: fst s, r)) ([], bs) in
    Ok (rev acc, r).

(** The data of a number tag, descriptive/de.rs:637-694 *)
Definition dany_num (data : N) : dec value :=
  fun bs =>
    let u w := let* (n, r) := tunsigned_dec (bits w) bs in Ok (UNum (NU w n), r) in
    let s w := let* (z, r) := tsigned_dec (bits w) bs in Ok (UNum (NI w z), r) in
    let is w k := data =? num_data w k in
    if is W8 NUnsigned then u W8
    else if is W16 NUnsigned then u W16
    else if is W32 NUnsigned then u W32
    else if is W64 NUnsigned then u W64
    else if is W128 NUnsigned then u W128
    else if is W8 NSigned then s W8
    else if is W16 NSigned then s W16
    else if is W32 NSigned then s W32
    else if is W64 NSigned then s W64
    else if is W128 NSigned then s W128
    else if is W32 NFloat then let* (n, r) := tunsigned_dec 32 bs in Ok (UNum (NF32 n), r)
    else if is W64 NFloat then let* (n, r) := tunsigned_dec 64 bs in Ok (UNum (NF64 n), r)
    else Err.

(** A leaf of the descriptive format as a value. *)
Definition dany_leaf (p : plat) (o : N) (t : ty) (f : val -> option value) : dec value :=
  fun bs =>
    let* (v, r) := dleaf_dec p o t bs in
    match f v with Some x => Ok (x, r) | None => Err end.

(** [Value::decode] with a [SelfDecoder]: [decode_any] with [AnyVisitor],
    descriptive/de.rs:624-743, value/value.rs:273-467. [fuel] bounds the depth of nesting; every
    level reads at least one byte. Not modelled: the room that is reserved for the announced
    number of elements, which can be more than there is. *)
Fixpoint dany (fuel : nat) (p : plat) (o : N) (bs : bytes) {struct fuel} : res (value * bytes) :=
  match fuel, bs with
  | S f, b :: _ =>
      match dtag_kind b with
      | DNumber => match dtag_data b with Some d => dany_num d bs | None => Err end
      | DSequence =>
          let* (n, r) := dlen_dec p o DSequence bs in
          let* (xs, r') := any_count n (dany f p o) r in
          Ok (USeq xs, r')
      | DMap =>
          let* (n, r) := dlen_dec p o DMap bs in
          let* (es, r') := any_count n (fun bs => let* (k, r) := dany f p o bs in
                                                  let* (x, r') := dany f p o r in
                                                  Ok ((k, x), r')) r in
          Ok (UMap es, r')
      | DBytes => dany_leaf p o TBytes (fun v => match v with VBytes h => Some (UBytes h) | _ => None end) bs
      | DString => dany_leaf p o TStr (fun v => match v with VBytes h => Some (UStr h) | _ => None end) bs
      | DMark =>
          let m := dtag_mark b in
          if (m =? M_TRUE) || (m =? M_FALSE) then
            dany_leaf p o TBool (fun v => match v with VBool b => Some (UBool b) | _ => None end) bs
          else if m =? M_VARIANT then
            let* (_, r) := f_var_dec (descriptive p o) bs in
            let* (k, r') := dany f p o r in
            let* (x, r'') := dany f p o r' in
            Ok (UVariant k x, r'')
          else if (m =? M_SOME) || (m =? M_NONE) then
            let* (some, r) := f_opt_dec (descriptive p o) bs in
            if some : bool then let* (x, r') := dany f p o r in Ok (UOpt (Some x), r')
            else Ok (UOpt None, r)
          else if m =? M_CHAR then
            dany_leaf p o TChar (fun v => match v with VN c => Some (UChar c) | _ => None end) bs
          else if m =? M_UNIT then
            dany_leaf p o TUnit (fun v => match v with VUnit => Some UUnit | _ => None end) bs
          else Err
      | DReserved => Err
      end
  | _, _ => Err
  end.

(** ** The API *)

(** [Value] with descriptive::encode and descriptive::decode *)
Definition desc_encode_value (p : plat) (o : N) : value -> res bytes := uenc (descriptive p o).
Definition desc_decode_value (p : plat) (o : N) : dec value := fun bs => dany (length bs) p o bs.

(** [BUFFER_OPTIONS], descriptive/de.rs:21 *)
Definition BUFFER_OPTIONS : N := opt_new.

(** [T::decode] from the decoder that [decode_buffer] returns, descriptive/de.rs:269-274. The
    options of the buffer are constants, whatever those of the decoder. *)
Definition desc_decode_buffered (p : plat) (o : N) (t : ty) : dec val :=
  fun bs =>
    let* (x, r) := desc_decode_value p o bs in
    let* v := vdec p BUFFER_OPTIONS false false t x in
    Ok (v, r).

(** [Value] with wire::encode *)
Definition wire_encode_value (p : plat) (o : N) : value -> res bytes := uenc (wire p o).
