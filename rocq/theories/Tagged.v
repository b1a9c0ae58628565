(** Model of the other ways to tag an enum that musli-macros supports: internally tagged
    ([#[musli(tag = ..)]]), adjacently tagged ([#[musli(tag = .., content = ..)]]), untagged
    ([#[musli(untagged)]]), and of the variant that stands for unknown ones
    ([#[musli(default)]]).

    The bodies of the variants are types of [Types.v]: a variant with fields is a [TStruct],
    one without is a [TStruct] with no fields, a packed one is a [TPack] and a transparent one any
    type. As in [Types.v], a struct with skipped fields in an adjacently tagged enum is that of
    a transparent variant (see [Derive.v] and [C29_variant_refuted] for inline ones). *)
From Verif Require Import Base Options Int Utf8 Types Storage Fmt Wire Desc Value Any.
Local Open Scope N_scope.

(** The calls that the generated code makes: what [Fmt.v] calls a format, and the storage format.
    [m_skip] is [skip] and what [decode_map] does with a value its callback left. *)
Record medium := {
  m_enc : ty -> val -> res bytes;
  m_dec : ty -> dec val;
  m_map_enc : N -> res bytes;
  m_map_dec : dec N;
  m_skip : dec unit
}.

Definition of_fmt (F : fmt) (p : plat) (o : N) : medium := {|
  m_enc := genc F p o;
  m_dec := gdec F p o;
  m_map_enc := f_map_enc F;
  m_map_dec := f_map_dec F;
  m_skip := f_skip F
|}.

(** storage: [skip] is not supported, and entries that are left over are an error,
    storage/de.rs:395-408 *)
Definition of_storage (p : plat) (o : N) : medium := {|
  m_enc := enc p o false;
  m_dec := dec_ p o false;
  m_map_enc := encode_usize p o;
  m_map_dec := decode_usize p o;
  m_skip := no_skip
|}.

(** An enum: the type of its tag and content keys and these keys, the type of the names of
    variants, and the variants. *)
Record tenum := {
  e_key : ty;
  e_tag : val;
  e_content : val;
  e_name : ty;
  e_vars : list (val * ty)
}.

(** ** Adjacently tagged *)

(** encode_adjacent_variant, musli-macros/src/en.rs:699-764 *)
Definition adj_enc (M : medium) (e : tenum) (v : val) : res bytes :=
  match v with
  | VVar i x =>
      match nth_error (e_vars e) i with
      | Some (name, t) =>
          let* l := m_map_enc M 2 in
          let* a := m_enc M (e_key e) (e_tag e) in
          let* b := m_enc M (e_name e) name in
          let* c := m_enc M (e_key e) (e_content e) in
          let* d := m_enc M t x in
          Ok (l ++ a ++ b ++ c ++ d)
      | None => Err
      end
  | _ => Err
  end.

(** The loop over the entries: still looking for the content, with the name of the variant if it was
    seen, or done. *)
Inductive search := Looking (name : option val) | Found (v : val).

(** decode_adjacent, musli-macros/src/de.rs:659-878. The entries after the content are skipped by
    [decode_map], wire/de.rs:487-495, descriptive/de.rs:583-591. *)
Definition adj_step (M : medium) (e : tenum) (s : search * bytes) : res (search * bytes) :=
  match fst s with
  | Found v =>
      let* (_, r) := m_skip M (snd s) in
      let* (_, r') := m_skip M r in
      Ok (Found v, r')
  | Looking name =>
      let* (k, r) := m_dec M (e_key e) (snd s) in
      if val_eqb k (e_tag e) then
        let* (n, r') := m_dec M (e_name e) r in Ok (Looking (Some n), r')
      else if val_eqb k (e_content e) then
        match name with
        | None => Err
        | Some n =>
            match find_name n (map fst (e_vars e)) with
            | Some i =>
                match nth_error (e_vars e) i with
                | Some (_, t) => let* (x, r') := m_dec M t r in Ok (Found (VVar i x), r')
                | None => Err
                end
            | None => Err
            end
        end
      else let* (_, r') := m_skip M r in Ok (Looking name, r')
  end.

Definition adj_dec (M : medium) (e : tenum) : dec val :=
  fun bs =>
    let* (n, r) := m_map_dec M bs in
    let* (s, r') := iterN n (adj_step M e) (Looking None, r) in
    match s with Found v => Ok (v, r') | Looking _ => Err end.

(** ** Internally tagged *)

(** encode_internal_variant, musli-macros/src/en.rs:584-697. The body is a struct; a
    transparent variant around one writes the same calls. [e_content] is not used. *)
Definition int_enc (M : medium) (e : tenum) (v : val) : res bytes :=
  match v with
  | VVar i (VList vs) =>
      match nth_error (e_vars e) i with
      | Some (name, TStruct kt fs) =>
          let* l := m_map_enc M (1 + count_fields (map fst fs) vs) in
          let* a := m_enc M (e_key e) (e_tag e) in
          let* b := m_enc M (e_name e) name in
          let* c := enc_fields (m_enc M kt) (map (fun ft => (fst ft, m_enc M (snd ft))) fs) vs in
          Ok (l ++ a ++ b ++ c)
      | _ => Err
      end
  | _ => Err
  end.

(** The first entry under the tag, musli-macros/src/de.rs:521-570 and 624-640; the other
    entries before it are skipped. *)
Fixpoint find_tag (dk : value -> res val) (tag : val) (es : list (value * value)) : res value :=
  match es with
  | [] => Err
  | (a, b) :: r => let* k := dk a in if val_eqb k tag then Ok b else find_tag dk tag r
  end.

(** decode_internal, musli-macros/src/de.rs:461-657, from the buffer, which has the options [o] *)
Definition int_dec_value (p : plat) (o : N) (keys : bool) (e : tenum) (x : value) : res val :=
  match x with
  | UMap es =>
      let* b := find_tag (vdec p o keys keys (e_key e)) (e_tag e) es in
      let* n := vdec p o keys false (e_name e) b in
      match find_name n (map fst (e_vars e)) with
      | Some i =>
          match nth_error (e_vars e) i with
          | Some (_, t) => let* y := vdec p o keys false t x in Ok (VVar i y)
          | None => Err
          end
      | None => Err
      end
  | _ => Err
  end.

(** In the descriptive format; storage and wire have no [decode_buffer]. For JSON, see [JsonAny.v]. *)
Definition int_dec (p : plat) (o : N) (e : tenum) : dec val :=
  fun bs =>
    let* (x, r) := desc_decode_value p o bs in
    let* v := int_dec_value p BUFFER_OPTIONS false e x in
    Ok (v, r).

(** ** Untagged *)

(** musli-macros/src/en.rs:443-446 *)
Definition unt_enc (M : medium) (ts : list ty) (v : val) : res bytes :=
  match v with
  | VVar i x => match nth_error ts i with Some t => m_enc M t x | None => Err end
  | _ => Err
  end.

(** decode_untagged_enum, musli-macros/src/de.rs:273-362. Every variant but the last decodes from
    [try_clone] of the decoder, a copy of the reader at its position (reader.rs:199-201,
    403-408, 554-559; storage/de.rs:82-84, wire/de.rs:244-246, descriptive/de.rs:254-256); the
    reader itself stays where it is. *)
Fixpoint unt_from (M : medium) (i : nat) (ts : list ty) : dec val :=
  fun bs =>
    match ts with
    | [] => Err
    | [t] => let* (x, r) := m_dec M t bs in Ok (VVar i x, r)
    | t :: ts' =>
        match m_dec M t bs with
        | Ok (x, _) => Ok (VVar i x, bs)
        | Err => unt_from M (S i) ts' bs
        | Panic => Panic
        end
    end.
Definition unt_dec (M : medium) (ts : list ty) : dec val := unt_from M 0 ts.

(** ** Fallback variants *)

(** Default tagging with a fallback variant, musli-macros/src/de.rs:364-458, 915-930: the body of an
    unknown variant is skipped. [fb]: the fallback variant, which has no fields. *)
Definition fb_dec (F : fmt) (p : plat) (o : N) (kt : ty) (vs : list (val * ty)) (fb : nat) : dec val :=
  fun bs =>
    let* (_, r0) := f_var_dec F bs in
    let* (k, r) := gdec F p o kt r0 in
    match find_name k (map fst vs) with
    | Some i =>
        match nth_error vs i with
        | Some (_, t) => let* (v, r') := gdec F p o t r in Ok (VVar i v, r')
        | None => Err
        end
    | None => let* (_, r') := f_skip F r in Ok (VVar fb (VList []), r')
    end.

(** Enums without fields, musli-macros/src/de.rs:210-271 *)
Definition fb_tag_dec (M : medium) (kt : ty) (tags : list val) (fb : nat) : dec val :=
  fun bs =>
    let* (k, r) := m_dec M kt bs in
    match find_name k tags with
    | Some i => Ok (VVar i VUnit, r)
    | None => Ok (VVar fb VUnit, r)
    end.

(** A sequence of such enums: [Vec<T>], de/utils.rs:5-32 and en/utils.rs:7-24 *)
Definition seq_enc (F : fmt) (e : val -> res bytes) (vs : list val) : res bytes :=
  let* l := f_seq_enc F (lenN vs) in
  let* b := concat_res e vs in
  Ok (l ++ b).
Definition seq_dec (F : fmt) (d : dec val) : dec (list val) :=
  fun bs =>
    let* (n, r) := f_seq_dec F bs in
    dec_count n d r.
