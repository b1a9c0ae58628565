(** What JSON document a dynamic value is written as, and what value that document is when it is read. *)
From Verif Require Import Base Options Int Utf8 Types FloatSpec Json JsonNum JsonSpec Value JsonAnySpec.
Local Open Scope N_scope.

(** The integer that a number is *)
Definition integer_of (n : number) : option Z :=
  match n with
  | NU _ n | NUsize n => Some (Z.of_N n)
  | NI _ z | NIsize z => Some z
  | NF32 _ | NF64 _ => None
  end.

(** The name of a member, for a string or an integer (in decimal). *)
Inductive named : value -> list N -> Prop :=
| named_str cs : Forall (fun c => char_valid c = true) cs -> named (UStr (str_bytes cs)) cs
| named_int n neg k s : integer_of n = Some (z_of neg k) -> int_text k s -> named (UNum n) (sign neg ++ s).

Definition octet_of (b : N) (j : jtree) : Prop := j = JInt false b.

(** The document for a value: [p] only matters for [means], the meaning of a number with a fraction or an exponent. *)
Inductive document (p : plat) : value -> jtree -> Prop :=
| doc_unit : document p UUnit JNull
| doc_bool b : document p (UBool b) (JBool b)
| doc_char c : document p (UChar c) (JStr [c])
| doc_int n neg k : integer_of n = Some (z_of neg k) -> document p (UNum n) (JInt neg k)
| doc_f32 x j : means p TF32 j (VN x) -> document p (UNum (NF32 x)) j
| doc_f64 x j : means p TF64 j (VN x) -> document p (UNum (NF64 x)) j
| doc_bytes bs l : Forall2 octet_of bs l -> document p (UBytes bs) (JArr l)
| doc_str cs : Forall (fun c => char_valid c = true) cs -> document p (UStr (str_bytes cs)) (JStr cs)
| doc_seq xs l : Forall2 (document p) xs l -> document p (USeq xs) (JArr l)
| doc_map es l : Forall2 (fun e m => named (fst e) (fst m) /\ document p (snd e) (snd m)) es l ->
    document p (UMap es) (JObj l)
| doc_variant k x cs j : named k cs -> document p x j -> document p (UVariant k x) (JObj [(cs, j)])
| doc_none : document p (UOpt None) JNull
| doc_some x j : document p x j -> document p (UOpt (Some x)) j.

(** Keys are strings or integers. *)
Definition key_like (x : value) : bool :=
  match x with
  | UStr _ => true
  | UNum n => match integer_of n with Some _ => true | None => false end
  | _ => false
  end.
Fixpoint keys_like (x : value) : bool :=
  match x with
  | USeq xs => forallb keys_like xs
  | UMap es => forallb (fun e => key_like (fst e) && keys_like (snd e)) es
  | UVariant k y => key_like k && keys_like y
  | UOpt (Some y) => keys_like y
  | _ => true
  end.

(** Every number in a value is so. *)
Fixpoint numbers (P : number -> bool) (x : value) : bool :=
  match x with
  | UNum n => P n
  | USeq xs => forallb (numbers P) xs
  | UMap es => forallb (fun e => numbers P (fst e) && numbers P (snd e)) es
  | UVariant k y => numbers P k && numbers P y
  | UOpt (Some y) => numbers P y
  | _ => true
  end.
(** No infinities and no NaN *)
Definition finite_number (n : number) : bool :=
  match n with
  | NF32 x => finite_float binary32 x
  | NF64 x => finite_float binary64 x
  | _ => true
  end.
Definition whole_number (n : number) : bool := match integer_of n with Some _ => true | None => false end.

(** What remains of a value in JSON: numbers lose their type, and characters, byte strings, variants,
    options and numeric keys are no longer told from strings, sequences, maps and what they hold. *)
Inductive remains : value -> value -> Prop :=
| rem_unit : remains UUnit UUnit
| rem_bool b : remains (UBool b) (UBool b)
| rem_char c : remains (UChar c) (UStr (utf8_enc c))
| rem_num n neg k y : integer_of n = Some (z_of neg k) -> (neg = true -> k <> 0) -> number_of neg k y ->
    remains (UNum n) (UNum y)
| rem_bytes bs : Forall (fun b => b < 256) bs -> remains (UBytes bs) (USeq (map (fun b => UNum (NU W8 b)) bs))
| rem_str s : remains (UStr s) (UStr s)
| rem_seq xs ys : Forall2 remains xs ys -> remains (USeq xs) (USeq ys)
| rem_map es fs : Forall2 (fun e f => key_remains (fst e) (fst f) /\ remains (snd e) (snd f)) es fs ->
    remains (UMap es) (UMap fs)
| rem_variant k x k' y : key_remains k k' -> remains x y -> remains (UVariant k x) (UMap [(k', y)])
| rem_none : remains (UOpt None) UUnit
| rem_some x y : remains x y -> remains (UOpt (Some x)) y
with key_remains : value -> value -> Prop :=
| rem_key_str s : key_remains (UStr s) (UStr s)
| rem_key_int n neg k s : integer_of n = Some (z_of neg k) -> (neg = true -> k <> 0) -> int_text k s ->
    key_remains (UNum n) (UStr (sign neg ++ s)).

(** The last thing written is a digit. *)
Fixpoint a_number (x : value) : bool :=
  match x with
  | UNum _ => true
  | UOpt (Some y) => a_number y
  | _ => false
  end.

(** [-0] is the only number with a sign that is no negative number. *)
Definition not_minus_zero (n : number) : bool := match n with NI _ 0%Z => false | _ => true end.
