(** What derived [Encode] implementations announce and write:
    crates/musli-macros/src/en.rs.

    A value is modelled by the calls its implementation makes on the encoder;
    names, tags and leaf data do not matter here and are left out.  Not
    modelled: [try_fast_encode] (en.rs:131-135), which replaces all of this for
    bitwise types; tracing; errors of leaf encoders. *)
From Coq Require Import List NArith Bool.
From Verif Require Import Base.
Import ListNotations.
Open Scope N_scope.

(** EnumTagging, internals/attr.rs, and Packing::Untagged on an enum. *)
Inductive tagging := TagEmpty | TagDefault | TagUntagged | TagInternal | TagAdjacent.

(** A value, as far as its encoding goes.
    - [SAtom]: encodes without a map and has no size hint: scalars, strings;
    - [SSeq], [SOpt]: sequences, optional values (no size hint);
    - [SMap]: a collection of pairs, which announces its own length
      (impls/alloc.rs:492-506) but has no size hint;
    - [SBox]: Box, Rc, Arc, ...: encode as their content without forwarding the
      size hint (impls/alloc.rs:683-705); [SRef]: &T, &mut T, which forward it
      (en/encode.rs:77-129);
    - [SStruct], [SEnum]: derived. *)
Inductive src :=
| SAtom
| SSeq (xs : list src)
| SOpt (x : option src)
| SMap (es : list (src * src))
| SBox (x : src)
| SRef (x : src)
| SStruct (b : body)
| SEnum (tg : tagging) (b : body)
(** internals/build.rs Body: the unskipped fields of a struct or variant, by
    packing.  [BTransparent]: [custom] says that an encode path was given with
    #[musli(with)].  [BTagged]: [None] for a field without skip_encoding_if,
    [Some w] for a field with it, [w] saying that it is to be written (build.rs:163-178
    field_tests: [let var = !path(access)]). *)
with body :=
| BTransparent (custom : bool) (x : src)
| BPacked (fs : list src)
| BTagged (fs : list (option bool * src)).

(** The calls on an encoder. [CMap]: encode_map with its hint and the entries
    then encoded. *)
Inductive call :=
| CAtom
| CSeq (xs : list call)
| COpt (x : option call)
| CMap (hint : option N) (es : list (call * call))
| CPack (xs : list call)
| CVariant (data : call).

(** en.rs:810-834 length_test: is any skip_encoding_if attribute present. *)
Definition dynamic {A} (fs : list (option bool * A)) : bool :=
  existsb (fun f => match fst f with Some _ => true | None => false end) fs.
(** The sum of the expressions of length_test. *)
Definition written {A} (f : option bool * A) : bool :=
  match fst f with Some w => w | None => true end.
Definition count {A} (fs : list (option bool * A)) : N := lenN (filter written fs).
(** The number of fields without the attribute, which is the static length when
    there is no other. *)
Definition static_count {A} (fs : list (option bool * A)) : N :=
  lenN (filter (fun f => match fst f with Some _ => false | None => true end) fs).

(** Encode::size_hint of derived types: en.rs:238-275 default_size_hint;
    en.rs:531, 555, 607-652, 768 for enum variants. *)
Fixpoint size_hint (x : src) : option N :=
  match x with
  | SAtom | SSeq _ | SOpt _ | SMap _ | SBox _ => None
  | SRef y => size_hint y
  | SStruct b | SEnum TagUntagged b =>
      match b with
      | BTransparent custom y => if custom then None else size_hint y
      | BPacked _ => None
      | BTagged fs => Some (count fs)
      end
  | SEnum TagEmpty _ | SEnum TagDefault _ => Some 1
  | SEnum TagAdjacent _ => Some 2
  | SEnum TagInternal b =>
      match b with
      | BTransparent custom y =>
          if custom then None
          else match size_hint y with Some n => Some (1 + n) | None => None end
      | BPacked _ => None
      | BTagged fs => Some (count fs + 1)
      end
  end.

(** en.rs:780-800 build_hint for a list of fields: a static count, or
    [map_hint(self)], that is the size hint of the value itself
    (musli-core/src/lib.rs:117-143). [extra]: the tag of internal tagging. *)
Definition hint_of {A} (self_hint : option N) (extra : N) (fs : list (option bool * A)) : option N :=
  if dynamic fs then self_hint else Some (static_count fs + extra).

Fixpoint all_ok {A} (xs : list (res A)) : res (list A) :=
  match xs with
  | [] => Ok []
  | x :: t => let* a := x in let* b := all_ok t in Ok (a :: b)
  end.

(** en.rs:277-392 make_encoders, for tagged bodies. *)
Definition encode_fields (e : src -> res call) : list (option bool * src) -> res (list (call * call)) :=
  fix go fs :=
    match fs with
    | [] => Ok []
    | (w, y) :: t =>
        if written (w, y) then
          let* c := e y in
          let* es := go t in
          Ok ((CAtom, c) :: es)
        else go t
    end.

(** [both x]: the calls made when encoding to an encoder, and the entries added
    when encoding to [MapEncoder::as_encoder] (en/map_encoder.rs:50-133), which
    only takes maps. *)
Definition both : Type := res call * res (list (call * call)).

Fixpoint encode (x : src) : both :=
  match x with
  | SAtom => (Ok CAtom, Err)
  | SSeq xs => (let* cs := all_ok (map (fun y => fst (encode y)) xs) in Ok (CSeq cs), Err)
  | SOpt None => (Ok (COpt None), Err)
  | SOpt (Some y) => (let* c := fst (encode y) in Ok (COpt (Some c)), Err)
  | SMap es =>
      let entries := all_ok (map (fun e => let* k := fst (encode (fst e)) in
                                           let* v := fst (encode (snd e)) in Ok (k, v)) es) in
      (let* cs := entries in Ok (CMap (Some (lenN es)) cs), entries)
  | SBox y | SRef y => encode y
  | SStruct b => encode_default b (size_hint x)
  | SEnum tg b =>
      match tg with
      (* en.rs:511-534 encode_empty_variant *)
      | TagEmpty => (Ok CAtom, Err)
      (* en.rs:536-582 encode_tagged_variant *)
      | TagDefault => (let* c := fst (encode_default b (size_hint x)) in Ok (CVariant c), Err)
      (* en.rs:448-451 *)
      | TagUntagged => encode_default b (size_hint x)
      (* en.rs:584-697 encode_internal_variant *)
      | TagInternal =>
          match b with
          | BTransparent custom y =>
              if custom then (Err, Err)
              else let entries := let* es := snd (encode y) in Ok ((CAtom, CAtom) :: es) in
                   (let* es := entries in Ok (CMap (size_hint x) es), entries)
          | BPacked _ => (Err, Err)
          | BTagged fs =>
              let entries := let* es := encode_fields (fun y => fst (encode y)) fs in Ok ((CAtom, CAtom) :: es) in
              (let* es := entries in Ok (CMap (hint_of (size_hint x) 1 fs) es), entries)
          end
      (* en.rs:699-764 encode_adjacent_variant *)
      | TagAdjacent =>
          let entries := let* c := fst (encode_default b (size_hint x)) in
                         Ok [(CAtom, CAtom); (CAtom, c)] in
          (let* es := entries in Ok (CMap (Some 2) es), entries)
      end
  end
(** en.rs:182-236 encode_default; [self_hint] is the size hint of [self]. *)
with encode_default (b : body) (self_hint : option N) : both :=
  match b with
  | BTransparent _ y => encode y
  | BPacked fs => (let* cs := all_ok (map (fun y => fst (encode y)) fs) in Ok (CPack cs), Err)
  | BTagged fs =>
      let entries := encode_fields (fun y => fst (encode y)) fs in
      (let* es := entries in Ok (CMap (hint_of self_hint 0 fs) es), entries)
  end.
