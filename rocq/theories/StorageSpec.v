(** Side conditions of the storage theorems, as decidable predicates on types. *)
From Verif Require Import Base Options Int Utf8 Types Storage.
Local Open Scope N_scope.

(** ** Where optional values may occur in a packed context

    Inside a packed context an absent optional value takes no bytes and is
    recognised by the end of the input ("it only supports optional fields
    *at the end* of the stream", packed/mod.rs:14-15). *)

(** The memory of a value of the type takes at least one byte. *)
Fixpoint raw_sized (t : ty) : bool :=
  match t with
  | TUnit => false
  | TArray n t => (0 <? n) && raw_sized t
  | TPack _ fs => existsb (fun ft => raw_sized (snd ft)) fs
  | TBox t => raw_sized t
  | _ => true
  end.

(** Every encoding of a value of the type in a packed context takes at least one byte. [nf]: the
    options select the native-memory fast path. *)
Fixpoint sized (nf : bool) (t : ty) : bool :=
  match t with
  | TArr n => 0 <? n
  | TOpt _ => false
  | TBox t => sized nf t
  | TTag kt _ => sized nf kt
  | TEnum fast kt _ => if fast && nf && bw_as kt then raw_sized kt else sized nf kt
  | TPack contig fs =>
      if nf && bw_enc t then raw_sized t else existsb (fun ft => sized nf (snd ft)) fs
  | _ => true
  end.

Definition sized_fast (nf : bool) (t : ty) : bool :=
  if nf && bw_as t then raw_sized t else sized nf t.

(** All but the last are not at the end. *)
Fixpoint last_tail (tail : bool) (fs : list (bool -> bool)) : bool :=
  match fs with
  | [] => true
  | [f] => f tail
  | f :: r => f false && last_tail tail r
  end.

(** Optional values in a packed context are at the end of the input. [pk]: the context
    is packed; [tail]: nothing follows the value. *)
Fixpoint posok (nf pk tail : bool) (t : ty) {struct t} : bool :=
  match t with
  | TOpt t' => (if pk then tail && sized_fast nf t' else true) && posok nf pk tail t'
  | TBox t' => posok nf pk tail t'
  | TVec t' | TArray _ t' | TSet t' => posok nf pk false t'
  | TTup ts => last_tail tail (map (fun t' b => posok nf pk b t') ts)
  | TMap k v => posok nf pk false k && posok nf pk false v
  | TPack _ fs =>
      last_tail tail (map (fun ft b => posok nf true b (snd ft)) fs)
  | TStruct kt fs => posok nf pk false kt && forallb (fun ft => posok nf pk false (snd ft)) fs
  | TTag kt _ => posok nf pk tail kt
  | TEnum _ kt vs => posok nf pk false kt && forallb (fun tv => posok nf pk tail (snd tv)) vs
  | _ => true
  end.

(** ** Types for which the native-memory fast path is coherent

    With native fixed options the encoder copies memory for types with
    [IS_BITWISE_ENCODE] and the decoder for those with [IS_BITWISE_DECODE]; the two
    differ (bool, char, NonZero), and some callers use the fast path on
    one side only. [coh f t] says that both sides agree for a value of type
    [t] written and read through [Encoder::encode]/[Decoder::decode] ([f =
    true]) or [T::encode]/[T::decode] ([f = false]). *)

(** The element-wise decoder understands the memory of the value. *)
Fixpoint rawD (t : ty) : bool :=
  match t with
  | TBool | TChar | TU _ | TI _ | TUsize | TIsize | TF32 | TF64 | TNonZero _ => true
  | TPack contig fs =>
      contig && (forallb (fun ft => bw_dec (snd ft)) fs ||
      forallb (fun ft => rawD (snd ft)) fs)
  | _ => false
  end.

(** The element-wise encoder produces the memory of the value. *)
Definition dirR (t : ty) : bool :=
  match t with TUnit | TArray _ _ => false | _ => true end.

Fixpoint coh (f : bool) (t : ty) {struct t} : bool :=
  match t with
  | TBox t' =>
      if f then match t' with TBox _ => coh false t' | _ => coh true t' end
      else if bw_dec t' then dirR t' else coh false t'
  | _ =>
      if f && bw_enc t then bw_dec t || rawD t
      else match t with
      | TOpt t' | TVec t' | TArray _ t' | TSet t' => coh true t'
      | TTup ts => forallb (coh true) ts
      | TMap k v => coh true k && coh true v
      | TPack contig fs =>
          if bw_enc t then bw_dec t || rawD t else forallb (fun ft => coh false (snd ft)) fs
      | TStruct kt fs => coh false kt && forallb (fun ft => coh false (snd ft)) fs
      | TTag kt _ => coh false kt
      | TEnum fast kt vs => coh fast kt && forallb (fun tv => coh fast (snd tv)) vs
      | _ => true
      end
  end.

(** The options do not select the fast path, or they do with the native byte order and
    the type is coherent. *)
Definition fast_ok (p : plat) (o : N) (t : ty) : Prop :=
  is_native_fixed p o = true -> byteorder_value o = native_bo p /\ coh false t = true.

(** ** Types whose encodings mark their own end

    Inside a packed context, an absent optional value is recognised by the end of the
    input; [delimited pk t] says that the type has none there. *)
Fixpoint delimited (pk : bool) (t : ty) {struct t} : bool :=
  match t with
  | TOpt t' => negb pk && delimited pk t'
  | TBox t' | TVec t' | TArray _ t' | TSet t' => delimited pk t'
  | TTup ts => forallb (delimited pk) ts
  | TMap k v => delimited pk k && delimited pk v
  | TPack _ fs =>
      forallb (fun ft => delimited true (snd ft)) fs
  | TStruct kt fs => delimited pk kt && forallb (fun ft => delimited pk (snd ft)) fs
  | TTag kt _ => delimited pk kt
  | TEnum _ kt vs => delimited pk kt && forallb (fun tv => delimited pk (snd tv)) vs
  | _ => true
  end.

(** Every length that a collection can have fits the configured length width. *)
Definition lengths_fit (p : plat) (o : N) : Prop :=
  length_value o = WVariable \/ usize_bits p <= bits (width_int (length_value o)).

(** Types of which a value has one encoding only, when integers and lengths are of fixed width:
    no sets, maps and structs (whose members may come in any order, and twice), and no optional
    value outside of packed structs (any marker other than 1 is accepted as [None]). *)
Fixpoint rigid (pk : bool) (t : ty) {struct t} : bool :=
  match t with
  | TSet _ | TMap _ _ | TStruct _ _ => false
  | TOpt t' => pk && rigid pk t'
  | TBox t' | TVec t' | TArray _ t' => rigid pk t'
  | TTup ts => forallb (rigid pk) ts
  | TPack _ fs => forallb (fun ft => rigid true (snd ft)) fs
  | TTag kt _ => rigid pk kt
  | TEnum _ kt vs => rigid pk kt && forallb (fun tv => rigid pk (snd tv)) vs
  | _ => true
  end.
