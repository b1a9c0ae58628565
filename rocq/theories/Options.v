(** Model of crates/musli/src/options.rs: the options bitfield. *)
From Verif Require Import Base.
Local Open Scope N_scope.

(** options.rs:338-345 *)
Inductive Integer := IVariable | IFixed.

(** options.rs:353-366 *)
Inductive Float := FInteger | FVariable | FFixed | FPad0.

(** options.rs:377-384 *)
Inductive ByteOrder := Little | Big.

(** options.rs:445-467 *)
Inductive Width := WVariable | WU8 | WU16 | WU32 | WU64 | WPad0 | WPad1 | WPad2.

(** Target pointer widths accepted by [Width::NATIVE], options.rs:475-485. *)
Inductive Ptr := P16 | P32 | P64.

(** The compilation target: its byte order (options.rs:395-399,
    [ByteOrder::NATIVE]) and pointer width (options.rs:475-485). *)
Record plat := { native_bo : ByteOrder; ptr : Ptr }.

Definition ptr_bits (p : Ptr) : N := match p with P16 => 16 | P32 => 32 | P64 => 64 end.

(** [Width::NATIVE], options.rs:475-485 *)
Definition native_width (p : plat) : Width :=
  match ptr p with P64 => WU64 | P32 => WU32 | P16 => WU16 end.

(** [as Options] casts of the [#[repr(u8)]] enums, options.rs:338-467 *)
Definition integer_bits (i : Integer) : N := match i with IVariable => 0 | IFixed => 1 end.
Definition float_bits (f : Float) : N :=
  match f with FInteger => 0 | FVariable => 1 | FFixed => 2 | FPad0 => 3 end.
Definition byteorder_bits (b : ByteOrder) : N := match b with Little => 0 | Big => 1 end.
Definition width_bits (w : Width) : N :=
  match w with
  | WVariable => 0 | WU8 => 1 | WU16 => 2 | WU32 => 3
  | WU64 => 4 | WPad0 => 5 | WPad1 => 6 | WPad2 => 7
  end.

(** options.rs:38-42 *)
Definition BYTEORDER_BIT : N := 0.
Definition INTEGER_BIT : N := 4.
Definition FLOAT_BIT : N := 8.
Definition LENGTH_BIT : N := 12.
Definition MAP_KEYS_AS_NUMBERS_BIT : N := 16.

(** [MASK] constants, options.rs:348, 369, 387, 470, 135 *)
Definition INTEGER_MASK : N := 1.
Definition FLOAT_MASK : N := 3.
Definition BYTEORDER_MASK : N := 1.
Definition WIDTH_MASK : N := 7.

(** [DEFAULT] and [new()], options.rs:8, 13-16 *)
Definition opt_new : N := N.shiftl (byteorder_bits Little) BYTEORDER_BIT.

(** The common body of the setters:
    [(self.0 & !(MASK << BIT)) | (value << BIT)] on [u32]. *)
Definition set_field (opt mask bit v : N) : N :=
  N.lor (N.land opt (N.lxor (N.ones 32) (N.shiftl mask bit))) (N.shiftl v bit).

(** [Builder::integer], options.rs:55-58 *)
Definition set_integer (o : N) (i : Integer) : N :=
  set_field o INTEGER_MASK INTEGER_BIT (integer_bits i).
(** [Builder::float], options.rs:70-73 *)
Definition set_float (o : N) (f : Float) : N :=
  set_field o FLOAT_MASK FLOAT_BIT (float_bits f).
(** [Builder::byte_order], options.rs:85-88 *)
Definition set_byte_order (o : N) (b : ByteOrder) : N :=
  set_field o BYTEORDER_MASK BYTEORDER_BIT (byteorder_bits b).
(** [Builder::native_byte_order], options.rs:100-102 *)
Definition set_native_byte_order (p : plat) (o : N) : N := set_byte_order o (native_bo p).
(** [Builder::pointer], options.rs:115-118 *)
Definition set_pointer (o : N) (w : Width) : N :=
  set_field o WIDTH_MASK LENGTH_BIT (width_bits w).
(** [Builder::map_keys_as_numbers], options.rs:134-137 *)
Definition set_map_keys_as_numbers (o : N) : N :=
  set_field o 1 MAP_KEYS_AS_NUMBERS_BIT 1.
(** [Builder::fixed], options.rs:161-165 *)
Definition set_fixed (p : plat) (o : N) : N :=
  set_pointer (set_float (set_integer o IFixed) FFixed) (native_width p).
(** [Builder::variable], options.rs:189-193 *)
Definition set_variable (o : N) : N :=
  set_pointer (set_float (set_integer o IVariable) FVariable) WVariable.

(** [integer_value], options.rs:238-243 *)
Definition integer_value (o : N) : Integer :=
  match N.land (N.shiftr o INTEGER_BIT) 1 with 0 => IVariable | _ => IFixed end.

(** [float_value], options.rs:258-265 *)
Definition float_value (o : N) : Float :=
  match N.land (N.shiftr o FLOAT_BIT) 3 with
  | 0 => FInteger | 1 => FVariable | 2 => FFixed | _ => FPad0
  end.

(** [length_value], options.rs:280-291 *)
Definition length_value (o : N) : Width :=
  match N.land (N.shiftr o LENGTH_BIT) 7 with
  | 0 => WVariable | 1 => WU8 | 2 => WU16 | 3 => WU32
  | 4 => WU64 | 5 => WPad0 | 6 => WPad1 | _ => WPad2
  end.

(** [byteorder_value], options.rs:306-311 *)
Definition byteorder_value (o : N) : ByteOrder :=
  match N.land (N.shiftr o BYTEORDER_BIT) 1 with 0 => Little | _ => Big end.

(** [is_map_keys_as_numbers_value], options.rs:319-321 *)
Definition is_map_keys_as_numbers_value (o : N) : bool :=
  N.land (N.shiftr o MAP_KEYS_AS_NUMBERS_BIT) 1 =? 1.

Definition width_eqb (a b : Width) : bool := width_bits a =? width_bits b.
Definition byteorder_eqb (a b : ByteOrder) : bool := byteorder_bits a =? byteorder_bits b.

(** [is_native_fixed], options.rs:329-334. The byte order is not consulted. *)
Definition is_native_fixed (p : plat) (o : N) : bool :=
  match integer_value o, float_value o with
  | IFixed, FFixed => width_eqb (length_value o) (native_width p)
  | _, _ => false
  end.

(** One call of the builder. *)
Inductive opt_call :=
| CInteger (i : Integer)
| CFloat (f : Float)
| CByteOrder (b : ByteOrder)
| CNativeByteOrder
| CPointer (w : Width)
| CMapKeys
| CFixed
| CVariable.

(** Applying one builder call; dispatches to the setters above. *)
Definition apply_call (p : plat) (o : N) (c : opt_call) : N :=
  match c with
  | CInteger i => set_integer o i
  | CFloat f => set_float o f
  | CByteOrder b => set_byte_order o b
  | CNativeByteOrder => set_native_byte_order p o
  | CPointer w => set_pointer o w
  | CMapKeys => set_map_keys_as_numbers o
  | CFixed => set_fixed p o
  | CVariable => set_variable o
  end.

(** [options::new().call1().call2()...build()] *)
Definition build (p : plat) (calls : list opt_call) : N :=
  fold_left (apply_call p) calls opt_new.
