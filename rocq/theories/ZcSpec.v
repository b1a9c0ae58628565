(** Specification vocabulary for the zero-copy types: well-formed types, values
    of a type, memory which represents a value. *)
From Verif Require Import Base Options Int Utf8 Zc.
Local Open Scope N_scope.

Definition pow2 (n : N) : Prop := exists k, n = 2 ^ k.

(** A type the Rust compiler can produce: alignments are powers of two,
    primitive sizes are multiples of their alignment, discriminants are
    distinct and fit. *)
Inductive zwf : zty -> Prop :=
| wf_int w al : pow2 al -> (al | N.of_nat w) -> zwf (ZInt w al)
| wf_nz w al : pow2 al -> (al | N.of_nat w) -> zwf (ZNonZero w al)
| wf_bool : zwf ZBool
| wf_char : zwf ZChar
| wf_unit : zwf ZUnit
| wf_array t n : zwf t -> zwf (ZArray t n)
| wf_struct pk al fs :
    (forall p, pk = Some p -> pow2 p) -> (forall a, al = Some a -> pow2 a) ->
    Forall zwf fs -> zwf (ZStruct pk al fs)
| wf_enum dw dal al vs sw :
    pow2 dal -> (dal | N.of_nat dw) -> (forall a, al = Some a -> pow2 a) ->
    NoDup (map fst vs) -> Forall (fun dv => fst dv < 256 ^ N.of_nat dw) vs ->
    Forall (fun dv => Forall zwf (snd dv)) vs -> zwf (ZEnum dw dal al vs sw)
| wf_self t : zwf t -> zwf (ZSelf t).

(** The values of a type. *)
Inductive zok : zty -> zval -> Prop :=
| ok_int w al n : n < 256 ^ N.of_nat w -> zok (ZInt w al) (VI n)
| ok_nz w al n : n < 256 ^ N.of_nat w -> n <> 0 -> zok (ZNonZero w al) (VI n)
| ok_bool b : zok ZBool (VB b)
| ok_char c : char_valid c = true -> zok ZChar (VC c)
| ok_unit : zok ZUnit VU
| ok_array t n vs : length vs = n -> Forall (zok t) vs -> zok (ZArray t n) (VArr vs)
| ok_struct pk al fs vs : Forall2 zok fs vs -> zok (ZStruct pk al fs) (VSt vs)
| ok_enum dw dal al vars sw i d fs vs :
    nth_error vars i = Some (d, fs) -> Forall2 zok fs vs -> zok (ZEnum dw dal al vars sw) (VEn i vs)
| ok_self t v : zok t v -> zok (ZSelf t) v.

(** The bytes [m] hold the layout [l], whatever its padding bytes are. *)
Definition holds (l : list (option N)) (m : bytes) : Prop :=
  Forall2 (fun o b => match o with Some x => b = x | None => True end) l m.

(** The bytes are a valid bit pattern of the type. *)
Definition valid_pattern (nb : ByteOrder) (t : zty) (m : bytes) : Prop :=
  exists v, zok t v /\ holds (mem_of nb t v) m.

(** The layout with every padding byte zero. *)
Definition zeroed (l : list (option N)) : bytes :=
  map (fun o => match o with Some x => x | None => 0 end) l.

(** Types whose [packed(N)] structs, if any, have no field less aligned than
    [N] (always the case for [packed] = [packed(1)]). *)
Inductive pk_ok : zty -> Prop :=
| po_int w al : pk_ok (ZInt w al)
| po_nz w al : pk_ok (ZNonZero w al)
| po_bool : pk_ok ZBool
| po_char : pk_ok ZChar
| po_unit : pk_ok ZUnit
| po_array t n : pk_ok t -> pk_ok (ZArray t n)
| po_struct pk al fs :
    (forall p f, pk = Some p -> In f fs -> p <= align_of f) ->
    Forall pk_ok fs -> pk_ok (ZStruct pk al fs)
| po_enum dw dal al vs sw : Forall (fun dv => Forall pk_ok (snd dv)) vs -> pk_ok (ZEnum dw dal al vs sw)
| po_self t : pk_ok t -> pk_ok (ZSelf t).

(** The alignment an address must have for the validator, which aligns
    addresses and not offsets, to look at the right bytes. *)
Fixpoint valign (t : zty) : N :=
  match t with
  | ZInt _ _ | ZNonZero _ _ | ZBool | ZChar | ZUnit => 1
  | ZArray t _ => valign t
  | ZStruct pk _ fs =>
      fold_right (fun f a => N.max (match pk with Some p => p | None => align_of f end) a) 1 fs
  | ZEnum _ dal _ vs _ =>
      fold_right (fun dv a => fold_right (fun f a => N.max (align_of f) a) a (snd dv)) dal vs
  | ZSelf t => valign t
  end.

(** ... and the fields of packed structs are not placed below theirs. *)
Inductive vpk_ok : zty -> Prop :=
| vo_int w al : vpk_ok (ZInt w al)
| vo_nz w al : vpk_ok (ZNonZero w al)
| vo_bool : vpk_ok ZBool
| vo_char : vpk_ok ZChar
| vo_unit : vpk_ok ZUnit
| vo_array t n : vpk_ok t -> vpk_ok (ZArray t n)
| vo_struct pk al fs :
    (forall p f, pk = Some p -> In f fs -> valign f <= p) ->
    Forall vpk_ok fs -> vpk_ok (ZStruct pk al fs)
| vo_enum dw dal al vs sw : Forall (fun dv => Forall vpk_ok (snd dv)) vs -> vpk_ok (ZEnum dw dal al vs sw)
| vo_self t : vpk_ok t -> vpk_ok (ZSelf t).

(** Types made of plain data, without nested [Endian] or [Ref] values (which
    fix their own byte order). *)
Fixpoint plain (t : zty) : bool :=
  match t with
  | ZArray t _ => plain t
  | ZStruct _ _ fs => forallb plain fs
  | ZEnum _ _ _ vs _ => forallb (fun dv => forallb plain (snd dv)) vs
  | ZSelf _ => false
  | _ => true
  end.

(** The variants paired by [swap] have the same fields (otherwise the generated
    [match] does not type check). *)
Inductive sw_ok : zty -> Prop :=
| so_int w al : sw_ok (ZInt w al)
| so_nz w al : sw_ok (ZNonZero w al)
| so_bool : sw_ok ZBool
| so_char : sw_ok ZChar
| so_unit : sw_ok ZUnit
| so_array t n : sw_ok t -> sw_ok (ZArray t n)
| so_struct pk al fs : Forall sw_ok fs -> sw_ok (ZStruct pk al fs)
| so_enum dw dal al vs sw :
    (forall tbl i j dv, sw = Some tbl -> nth_error tbl i = Some j -> nth_error vs i = Some dv ->
       exists d', nth_error vs j = Some (d', snd dv)) ->
    Forall (fun dv => Forall sw_ok (snd dv)) vs -> sw_ok (ZEnum dw dal al vs sw)
| so_self t : sw_ok t -> sw_ok (ZSelf t).
