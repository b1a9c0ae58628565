(** What the theorems about the wire and descriptive formats say, in terms of types and
    values only. *)
From Verif Require Import Base Options Int Utf8 Types Storage StorageSpec.
Local Open Scope N_scope.

(** Every packed struct in the type (outside of other packed structs) satisfies [P]. *)
Fixpoint packs (P : list (option val * ty) -> bool) (t : ty) {struct t} : bool :=
  match t with
  | TPack _ fs => P fs
  | TOpt t | TBox t | TVec t | TArray _ t | TSet t => packs P t
  | TTup ts => forallb (packs P) ts
  | TMap k v => packs P k && packs P v
  | TStruct kt fs => packs P kt && forallb (fun ft => packs P (snd ft)) fs
  | TTag kt _ => packs P kt
  | TEnum _ kt vs => packs P kt && forallb (fun tv => packs P (snd tv)) vs
  | _ => true
  end.

(** Optional values in a packed struct are at its end: its contents form a packed message of
    their own (see [posok]). *)
Definition pack_pos (nf : bool) (fs : list (option val * ty)) : bool :=
  last_tail true (map (fun ft b => posok nf true b (snd ft)) fs).

(** The contents of packed structs are coherent for the storage format: when the options enable
    its raw memory path, they are in native byte order and the paths agree on the fields. *)
Definition native_order (p : plat) (o : N) : bool :=
  match byteorder_value o, native_bo p with
  | Little, Little | Big, Big => true
  | _, _ => false
  end.

Definition packs_ok (p : plat) (o : N) (t : ty) : Prop :=
  packs (pack_pos (is_native_fixed p o)) t = true /\
  (is_native_fixed p o = true ->
     packs (fun fs => native_order p o && forallb (fun ft => coh false (snd ft)) fs) t = true).

(** Every leaf of the type satisfies [P]; packed structs are opaque. *)
Fixpoint leaves (P : ty -> bool) (t : ty) {struct t} : bool :=
  match t with
  | TPack _ _ => true
  | TOpt t | TBox t | TVec t | TArray _ t | TSet t => leaves P t
  | TTup ts => forallb (leaves P) ts
  | TMap k v => leaves P k && leaves P v
  | TStruct kt fs => leaves P kt && forallb (fun ft => leaves P (snd ft)) fs
  | TTag kt _ => leaves P kt
  | TEnum _ kt vs => leaves P kt && forallb (fun tv => leaves P (snd tv)) vs
  | _ => P t
  end.

(** Twice the number of entries of every map and struct, and the size of every packed
    struct, is within [usize]. Values that do not meet this do not fit the address space, unless
    their components take no memory. *)
Fixpoint fits (p : plat) (o : N) (t : ty) {struct t} : val -> bool :=
  match t with
  | TOpt t => fun v => match v with VSome x => fits p o t x | _ => true end
  | TBox t => fits p o t
  | TVec t | TArray _ t | TSet t =>
      fun v => match v with VList vs => forallb (fits p o t) vs | _ => true end
  | TTup ts => fun v => match v with VList vs => all2 (map (fits p o) ts) vs | _ => true end
  | TMap tk tv =>
      fun v => match v with
               | VMap kvs => forallb (fun kv => fits p o tk (fst kv) && fits p o tv (snd kv)) kvs
                             && (2 * lenN kvs <? 2 ^ usize_bits p)
               | _ => true end
  | TPack _ fs =>
      fun v => match v with
               | VList vs =>
                   match enc_list (map (fun ft => enc p o true (snd ft)) fs) vs with
                   | Ok b => lenN b <? 2 ^ usize_bits p
                   | _ => true
                   end
               | _ => true end
  | TStruct kt fs =>
      fun v => match v with
               | VList vs => all2 (map (fun ft => fits p o (snd ft)) fs) vs
                             && (2 * lenN fs <? 2 ^ usize_bits p)
                             && forallb (fun ft => fits p o kt (fname (fst ft))) fs
               | _ => true end
  | TTag kt tags =>
      fun v => match v with
               | VVar i _ => match nth_error tags i with Some k => fits p o kt k | None => true end
               | _ => true end
  | TEnum _ kt vs =>
      fun v => match v with
               | VVar i x =>
                   match nth_error (map (fun tv => (fst tv, fits p o (snd tv))) vs) i with
                   | Some (k, f) => fits p o kt k && f x
                   | None => true
                   end
               | _ => true end
  | _ => fun _ => true
  end.

(** ** Schema evolution

    [upg tW tR w r]: a value [w] written with type [tW] reads as [r] at type
    [tR]. The types are the same except that structs may have other fields in
    another order, and enums other variants. *)

(** The field [f] with value [w] is among those written. *)
Definition is_written (fs : list (finfo * ty)) (ws : list val) (f : finfo) (t : ty) (w : val) : Prop :=
  exists i, nth_error fs i = Some (f, t) /\ nth_error ws i = Some w /\ fskip f w = false.

Inductive upg : ty -> ty -> val -> val -> Prop :=
| U_same t v : upg t t v v
| U_none t t' : upg (TOpt t) (TOpt t') VNone VNone
| U_some t t' w r : upg t t' w r -> upg (TOpt t) (TOpt t') (VSome w) (VSome r)
| U_box t t' w r : upg t t' w r -> upg (TBox t) (TBox t') w r
| U_vec t t' ws rs : Forall2 (upg t t') ws rs -> upg (TVec t) (TVec t') (VList ws) (VList rs)
| U_array n t t' ws rs : Forall2 (upg t t') ws rs ->
    upg (TArray n t) (TArray n t') (VList ws) (VList rs)
| U_map k t t' ws rs :
    Forall2 (fun w r => fst w = fst r /\ upg t t' (snd w) (snd r)) ws rs ->
    upg (TMap k t) (TMap k t') (VMap ws) (VMap rs)
| U_struct kt fsW fsR ws rs :
    (* a field of the reader gets the value that was written under its name, or,
       if there was none, its default *)
    Forall2 (fun fr r =>
      (exists f t w, is_written fsW ws f t w /\ fname f = fname (fst fr) /\ upg t (snd fr) w r) \/
      ((forall f t w, is_written fsW ws f t w -> fname f <> fname (fst fr)) /\
       fdefault (fst fr) = Some r)) fsR rs ->
    upg (TStruct kt fsW) (TStruct kt fsR) (VList ws) (VList rs)
| U_enum fw fr kt vsW vsR i j k t t' w r :
    nth_error vsW i = Some (k, t) -> nth_error vsR j = Some (k, t') -> upg t t' w r ->
    upg (TEnum fw kt vsW) (TEnum fr kt vsR) (VVar i w) (VVar j r).

(** No decoding of the type skips input: it has no structs, tuples or units outside of packed
    structs. *)
Fixpoint noskip (t : ty) {struct t} : bool :=
  match t with
  | TUnit | TStruct _ _ | TTup _ => false
  | TOpt t | TBox t | TVec t | TArray _ t | TSet t => noskip t
  | TMap k v => noskip k && noskip v
  | TTag kt _ => noskip kt
  | TEnum _ kt vs => noskip kt && forallb (fun tv => noskip (snd tv)) vs
  | _ => true
  end.

(** [read_slot fsW ws fr s]: [s] is what the reader's field [fr] finds in a message with the
    written fields [fsW] and values [ws]: the value written under its name, or nothing. *)
Definition read_slot (fsW : list (finfo * ty)) (ws : list val) (fr : finfo * ty) (s : option val) : Prop :=
  (exists f t w r, is_written fsW ws f t w /\ fname f = fname (fst fr) /\ upg t (snd fr) w r /\ s = Some r) \/
  ((forall f t w, is_written fsW ws f t w -> fname f <> fname (fst fr)) /\ s = None).

(** The length width is one that the options builder can produce (see [C02]): the remaining
    three bit patterns are padding of the enum [Width]. *)
Definition plain_width (o : N) : bool :=
  match length_value o with WPad0 | WPad1 | WPad2 => false | _ => true end.

(** Leaves that the wire format's [skip] passes over correctly: all but [usize] and [isize]
    written with a fixed length width (see [C15_wire_skip_usize_refuted]). *)
Definition wok (o : N) (t : ty) : bool :=
  match t with
  | TUsize | TIsize => match length_value o with WVariable => true | _ => false end
  | _ => true
  end.

(** ** Integers as numbers *)

(** The integer types: whether signed, and the width. *)
Definition int_ty (p : plat) (t : ty) : option (bool * N) :=
  match t with
  | TU w => Some (false, bits w)
  | TUsize => Some (false, usize_bits p)
  | TI w => Some (true, bits w)
  | TIsize => Some (true, usize_bits p)
  | _ => None
  end.

(** The value of an integer type with the mathematical value [z]. *)
Definition int_val (signed : bool) (z : Z) : val := if signed then VZ z else VN (Z.to_N z).

(** The range of an integer type. *)
Definition in_range (signed : bool) (w : N) (z : Z) : Prop :=
  if signed then (- 2 ^ (Z.of_N w - 1) <= z < 2 ^ (Z.of_N w - 1))%Z else (0 <= z < 2 ^ Z.of_N w)%Z.
