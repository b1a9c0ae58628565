(** What the theorems about dynamic values say, in terms of types and values only. *)
From Verif Require Import Base Options Int Utf8 Types StorageSpec FmtSpec Value.
Local Open Scope N_scope.

(** Types none of whose values is written as the empty value [()]. *)
Fixpoint loud (t : ty) : bool :=
  match t with
  | TUnit => false
  | TBox t | TOpt t | TTag t _ => loud t
  | _ => true
  end.

(** The elements of options and sequences are never the empty value: see
    [C56_empty_refuted]. *)
Fixpoint keeps (t : ty) {struct t} : bool :=
  match t with
  | TOpt t | TVec t | TArray _ t | TSet t => loud t && keeps t
  | TBox t => keeps t
  | TTup ts => forallb (fun t => loud t && keeps t) ts
  | TMap k v => keeps k && keeps v
  | TStruct kt fs => keeps kt && forallb (fun ft => keeps (snd ft)) fs
  | TTag kt _ => keeps kt
  | TEnum _ kt vs => keeps kt && forallb (fun tv => keeps (snd tv)) vs
  | _ => true
  end.

(** What the types of Rust guarantee about any [Number] and any [Value]: numbers are in the range
    of their variant, characters and strings are valid, and a list has at most [usize::MAX]
    elements. *)
Definition number_ok (p : plat) (n : number) : Prop :=
  match n with
  | NU w x => x < 2 ^ bits w
  | NI w z => in_sb (bits w) z = true
  | NUsize x => x < 2 ^ usize_bits p
  | NIsize z => in_sb (usize_bits p) z = true
  | NF32 b => b < 2 ^ 32
  | NF64 b => b < 2 ^ 64
  end.

Inductive value_ok (p : plat) : value -> Prop :=
| V_unit : value_ok p UUnit
| V_bool b : value_ok p (UBool b)
| V_char c : char_valid c = true -> value_ok p (UChar c)
| V_num n : number_ok p n -> value_ok p (UNum n)
| V_bytes bs : bytes_ok bs = true -> lenN bs < 2 ^ usize_bits p -> value_ok p (UBytes bs)
| V_str bs : bytes_ok bs = true -> utf8_valid bs = true -> lenN bs < 2 ^ usize_bits p -> value_ok p (UStr bs)
| V_seq xs : Forall (value_ok p) xs -> lenN xs < 2 ^ usize_bits p -> value_ok p (USeq xs)
| V_map kvs : Forall (fun kv => value_ok p (fst kv) /\ value_ok p (snd kv)) kvs ->
    lenN kvs < 2 ^ usize_bits p -> value_ok p (UMap kvs)
| V_variant a b : value_ok p a -> value_ok p b -> value_ok p (UVariant a b)
| V_none : value_ok p (UOpt None)
| V_some x : value_ok p x -> value_ok p (UOpt (Some x)).
