(** What JSON text is and what it means, independently of the encoder and the decoder of
    [Json.v]: RFC 8259 without lone surrogates (which denote no character), and
    the values of the Rust types that a JSON document stands for. *)
From Verif Require Import Base Options Int Utf8 Types FloatSpec FloatTextSpec.
From Verif Require Export JsonNumSpec.
Local Open Scope N_scope.

(** ** Text *)

(** A JSON document. Strings are lists of Unicode scalar values. *)
Inductive jtree :=
| JNull
| JBool (b : bool)
| JInt (neg : bool) (n : N)                      (* a number without fraction and exponent *)
| JNum (neg : bool) (ds fs : bytes) (e : Z)      (* ds.fs * 10 ^ e, a number with fraction or exponent *)
| JStr (cs : list N)
| JArr (l : list jtree)
| JObj (l : list (list N * jtree)).

(** No object in the document has two members of the same name. *)
Fixpoint unrepeated (j : jtree) : Prop :=
  match j with
  | JArr l => allP (map unrepeated l)
  | JObj l => NoDup (map fst l) /\ allP (map (fun m => unrepeated (snd m)) l)
  | _ => True
  end.

(** RFC 8259, section 2 *)
Definition space (w : bytes) : Prop := Forall (fun b => b = 32 \/ b = 9 \/ b = 10 \/ b = 13) w.

(** RFC 8259, section 7 *)
Inductive hex : N -> N -> Prop :=
| hex_d d : d < 10 -> hex (48 + d) d
| hex_u d : 10 <= d < 16 -> hex (55 + d) d
| hex_l d : 10 <= d < 16 -> hex (87 + d) d.
Definition hex4 (h : bytes) (n : N) : Prop :=
  exists a b c d x y z w, h = [a; b; c; d] /\ hex a x /\ hex b y /\ hex c z /\ hex d w /\
    n = x * 4096 + y * 256 + z * 16 + w.

Definition short_escapes : list (N * N) :=
  [(34, 34); (92, 92); (47, 47); (8, 98); (12, 102); (10, 110); (13, 114); (9, 116)].

Inductive body : list N -> bytes -> Prop :=
| body_nil : body [] []
| body_plain c cs s : char_valid c = true -> 32 <= c -> c <> 34 -> c <> 92 ->
    body cs s -> body (c :: cs) (utf8_enc c ++ s)
| body_short c e cs s : In (c, e) short_escapes -> body cs s -> body (c :: cs) (92 :: e :: s)
| body_u c h cs s : hex4 h c -> char_valid c = true -> body cs s ->
    body (c :: cs) (92 :: 117 :: h ++ s)
| body_pair hi lo h1 h2 cs s : hex4 h1 hi -> hex4 h2 lo ->
    0xD800 <= hi <= 0xDBFF -> 0xDC00 <= lo <= 0xDFFF -> body cs s ->
    body (0x10000 + (hi - 0xD800) * 0x400 + (lo - 0xDC00) :: cs)
         (92 :: 117 :: h1 ++ 92 :: 117 :: h2 ++ s).

(** RFC 8259, sections 3 to 6. [tight]: there is no whitespace after the colons. *)
Inductive gtext (tight : bool) : jtree -> bytes -> Prop :=
| text_null : gtext tight JNull [110; 117; 108; 108]
| text_true : gtext tight (JBool true) [116; 114; 117; 101]
| text_false : gtext tight (JBool false) [102; 97; 108; 115; 101]
| text_int neg n s : int_text n s -> gtext tight (JInt neg n) (sign neg ++ s)
| text_num neg ds fs e sf se : whole ds -> frac false fs sf -> expo false e se -> sf ++ se <> [] ->
    gtext tight (JNum neg ds fs e) (sign neg ++ ds ++ sf ++ se)
| text_str cs s : body cs s -> gtext tight (JStr cs) (34 :: s ++ [34])
| text_arr l s : gelems tight l s -> gtext tight (JArr l) (91 :: s ++ [93])
| text_obj l s : gmembers tight l s -> gtext tight (JObj l) (123 :: s ++ [125])
with gelems (tight : bool) : list jtree -> bytes -> Prop :=
| elems_nil w : space w -> gelems tight [] w
| elems_one w1 j s w2 : space w1 -> gtext tight j s -> space w2 -> gelems tight [j] (w1 ++ s ++ w2)
| elems_more w1 j s w2 l r : space w1 -> gtext tight j s -> space w2 -> gelems tight l r -> l <> [] ->
    gelems tight (j :: l) (w1 ++ s ++ w2 ++ 44 :: r)
with gmembers (tight : bool) : list (list N * jtree) -> bytes -> Prop :=
| members_nil w : space w -> gmembers tight [] w
| members_one m s : gmember tight m s -> gmembers tight [m] s
| members_more m s l r : gmember tight m s -> gmembers tight l r -> l <> [] -> gmembers tight (m :: l) (s ++ 44 :: r)
with gmember (tight : bool) : list N * jtree -> bytes -> Prop :=
| member_intro w1 k ks w2 w3 j s w4 :
    space w1 -> body k ks -> space w2 -> space w3 -> (tight = true -> w3 = []) -> gtext tight j s -> space w4 ->
    gmember tight (k, j) (w1 ++ (34 :: ks ++ [34]) ++ w2 ++ 58 :: w3 ++ s ++ w4).
Arguments text_null {tight}.
Arguments text_true {tight}.
Arguments text_false {tight}.
Arguments text_int {tight}.
Arguments text_num {tight}.
Arguments text_str {tight}.
Arguments text_arr {tight}.
Arguments text_obj {tight}.
Arguments elems_nil {tight}.
Arguments elems_one {tight}.
Arguments elems_more {tight}.
Arguments members_nil {tight}.
Arguments members_one {tight}.
Arguments members_more {tight}.
Arguments member_intro {tight}.
Notation text := (gtext false).
Notation elems := (gelems false).
Notation members := (gmembers false).
Notation member := (gmember false).

(** ** Meaning *)

Definition str_bytes (cs : list N) : bytes := flat_map utf8_enc cs.

(** The value of a key of an object: integers are written in decimal. *)
Fixpoint key_means (p : plat) (t : ty) {struct t} : list N -> val -> Prop :=
  let un (tb : N) (cs : list N) (v : val) := exists n, int_text n cs /\ n < 2 ^ tb /\ v = VN n in
  let si (tb : N) (cs : list N) (v : val) :=
    exists neg n s, cs = sign neg ++ s /\ int_text n s /\ in_sb tb (z_of neg n) = true /\
                    v = VZ (z_of neg n) in
  match t with
  | TU w => un (bits w)
  | TUsize => un (usize_bits p)
  | TI w => si (bits w)
  | TIsize => si (usize_bits p)
  | TNonZero w => fun cs v => un (bits w) cs v /\ v <> VN 0
  | TStr => fun cs v => v = VBytes (str_bytes cs)
  | TBox t' => key_means p t'
  | TTag kt tags => fun cs v => exists i k, v = VVar i VUnit /\ nth_error tags i = Some k /\
                                            key_means p kt cs k
  | _ => fun _ _ => False
  end.

(** Element by element, each with its own relation. *)
Inductive each {A B : Type} : list (A -> B -> Prop) -> list A -> list B -> Prop :=
| each_nil : each [] [] []
| each_cons (R : A -> B -> Prop) Rs a l b m : R a b -> each Rs l m -> each (R :: Rs) (a :: l) (b :: m).

(** The value [x] of a field: the last one given for its name, otherwise the default. *)
Definition field_value (f : finfo) (kvs : list (val * val)) (x : val) : Prop :=
  (exists l1 l2, kvs = l1 ++ (fname f, x) :: l2 /\ ~ In (fname f) (map fst l2)) \/
  (~ In (fname f) (map fst kvs) /\ fdefault f = Some x).

Fixpoint means (p : plat) (t : ty) {struct t} : jtree -> val -> Prop :=
  let un (tb : N) (j : jtree) (v : val) := exists n, j = JInt false n /\ n < 2 ^ tb /\ v = VN n in
  let si (tb : N) (j : jtree) (v : val) :=
    exists neg n, j = JInt neg n /\ in_sb tb (z_of neg n) = true /\ v = VZ (z_of neg n) in
  let octets (j : jtree) (bs : bytes) :=
    exists l, j = JArr l /\ Forall2 (fun j b => j = JInt false b /\ b < 256) l bs in
  let tuple (Rs : list (jtree -> val -> Prop)) (j : jtree) (v : val) :=
    (* what follows the last component is ignored *)
    exists l extra vs, j = JArr (l ++ extra) /\ v = VList vs /\ each Rs l vs in
  (* the nearest number, ties to even *)
  let float (B : binary) (j : jtree) (v : val) :=
    exists neg b, v = VN (signed B neg b) /\
      ((exists n, j = JInt neg n /\ rounds_to B (QArith_base.inject_Z (Z.of_N n)) b) \/
       (exists ds fs e, j = JNum neg ds fs e /\ moderate ds fs e /\ rounds_to B (decimal_value ds fs e) b)) in
  match t with
  | TUnit => fun _ v => v = VUnit
  | TBool => fun j v => exists b, j = JBool b /\ v = VBool b
  | TChar => fun j v => exists c, j = JStr [c] /\ v = VN c
  | TU w => un (bits w)
  | TUsize => un (usize_bits p)
  | TI w => si (bits w)
  | TIsize => si (usize_bits p)
  | TNonZero w => fun j v => un (bits w) j v /\ v <> VN 0
  | TF32 => float binary32
  | TF64 => float binary64
  | TStr => fun j v => exists cs, j = JStr cs /\ v = VBytes (str_bytes cs)
  | TBytes => fun j v => exists bs, octets j bs /\ v = VBytes bs
  | TArr n => fun j v => exists bs, octets j bs /\ lenN bs = n /\ v = VBytes bs
  | TOpt t' => fun j v => (j = JNull /\ v = VNone) \/
                          (j <> JNull /\ exists x, means p t' j x /\ v = VSome x)
  | TBox t' => means p t'
  | TVec t' => fun j v => exists l vs, j = JArr l /\ Forall2 (means p t') l vs /\ v = VList vs
  | TArray n t' =>
      fun j v => exists l vs, j = JArr l /\ Forall2 (means p t') l vs /\ lenN vs = n /\ v = VList vs
  | TSet t' =>
      fun j v => exists l vs, j = JArr l /\ Forall2 (means p t') l vs /\
                              v = VList (fold_left (fun s x => set_insert x s) vs [])
  | TTup ts => tuple (map (means p) ts)
  | TPack _ fs => tuple (map (fun ft => means p (snd ft)) fs)
  | TMap tk tv =>
      fun j v => exists l kvs, j = JObj l /\
        Forall2 (fun m kv => key_means p tk (fst m) (fst kv) /\ means p tv (snd m) (snd kv)) l kvs /\
        v = VMap (fold_left (fun s kv => map_insert (fst kv) (snd kv) s) kvs [])
  | TStruct kt fs =>
      let Rs := map (fun ft => (fname (fst ft), means p (snd ft))) fs in
      fun j v => exists l kvs vs, j = JObj l /\ v = VList vs /\
        (* every key is a key; the values of known fields are of the field's type *)
        Forall2 (fun m kv => key_means p kt (fst m) (fst kv) /\
                             (forall R, In (fst kv, R) Rs -> R (snd m) (snd kv))) l kvs /\
        Forall2 (fun ft x => field_value (fst ft) kvs x) fs vs
  | TTag kt tags => fun j v => exists i k, v = VVar i VUnit /\ nth_error tags i = Some k /\
                                           means p kt j k
  | TEnum _ kt vs =>
      let Rs := map (fun tv => (fst tv, means p (snd tv))) vs in
      fun j v => exists ks j' i k R x, j = JObj [(ks, j')] /\ v = VVar i x /\
        nth_error Rs i = Some (k, R) /\ key_means p kt ks k /\ R j' x
  end.

(** ** Types *)

(** The types that the encoder for keys supports. *)
Fixpoint keyable (t : ty) : bool :=
  match t with
  | TU _ | TI _ | TUsize | TIsize | TNonZero _ | TStr => true
  | TBox t' => keyable t'
  | TTag kt _ => keyable kt
  | _ => false
  end.

(** Some value is written as [null]. *)
Fixpoint nullish (t : ty) : bool :=
  match t with
  | TUnit | TOpt _ => true
  | TBox t' => nullish t'
  | TTag kt _ => nullish kt
  | _ => false
  end.

(** Types whose values JSON can represent: keys are
    strings or integers, and [Some x] is never written as [null]. *)
Fixpoint jsonable (t : ty) : bool :=
  match t with
  | TOpt t' => jsonable t' && negb (nullish t')
  | TBox t' | TVec t' | TArray _ t' | TSet t' => jsonable t'
  | TTup ts => forallb jsonable ts
  | TPack _ fs => forallb (fun ft => jsonable (snd ft)) fs
  | TMap k v => keyable k && jsonable v
  | TStruct kt fs => keyable kt && forallb (fun ft => jsonable (snd ft)) fs
  | TTag kt _ => jsonable kt
  | TEnum _ kt vs => keyable kt && forallb (fun tv => jsonable (snd tv)) vs
  | _ => true
  end.

(** What may follow a number: nothing that continues it. *)
Definition ends (rest : bytes) : bool :=
  match rest with
  | [] => true
  | b :: _ => negb (between 48 57 b || (b =? 46) || (b =? 101) || (b =? 69))
  end.

(** No fixed-size byte array ([[u8; N]] through [decode_array]) anywhere. *)
Fixpoint no_arr (t : ty) : bool :=
  match t with
  | TArr _ => false
  | TOpt t' | TBox t' | TVec t' | TArray _ t' | TSet t' => no_arr t'
  | TTup ts => forallb no_arr ts
  | TPack _ fs => forallb (fun ft => no_arr (snd ft)) fs
  | TMap k v => no_arr k && no_arr v
  | TStruct kt fs => no_arr kt && forallb (fun ft => no_arr (snd ft)) fs
  | TTag kt _ => no_arr kt
  | TEnum _ kt vs => no_arr kt && forallb (fun tv => no_arr (snd tv)) vs
  | _ => true
  end.

(** The types whose text ends with a delimiter or is a fixed word. *)
Fixpoint delimited (t : ty) : bool :=
  match t with
  | TBool | TChar | TStr | TBytes | TArr _ | TVec _ | TArray _ _ | TSet _ | TTup _ | TMap _ _
  | TPack _ _ | TStruct _ _ | TEnum _ _ _ => true
  | TOpt t' | TBox t' => delimited t'
  | TTag kt _ => delimited kt
  | _ => false
  end.

(** No number with a fraction or an exponent, and the others within 128 bits. *)
Definition small_int (neg : bool) (n : N) : bool := if neg then n <=? 2 ^ 127 else n <? 2 ^ 128.
Fixpoint small (j : jtree) : bool :=
  match j with
  | JInt neg n => small_int neg n
  | JNum _ _ _ _ => false
  | JArr l => forallb small l
  | JObj l => forallb (fun m => small (snd m)) l
  | _ => true
  end.

(** A floating point number, without anything around it *)
Fixpoint is_float (t : ty) : bool :=
  match t with
  | TF32 | TF64 => true
  | TBox t' => is_float t'
  | TTag kt _ => is_float kt
  | _ => false
  end.
(** There are floating point numbers in values of the type. *)
Fixpoint has_float (t : ty) : bool :=
  match t with
  | TF32 | TF64 => true
  | TOpt t' | TBox t' | TVec t' | TArray _ t' | TSet t' => has_float t'
  | TTup ts => existsb has_float ts
  | TPack _ fs => existsb (fun ft => has_float (snd ft)) fs
  | TMap _ v => has_float v
  | TStruct _ fs => existsb (fun ft => has_float (snd ft)) fs
  | TTag kt _ => has_float kt
  | TEnum _ _ vs => existsb (fun tv => has_float (snd tv)) vs
  | _ => false
  end.

(** The floating point numbers in a value of type [t] are neither infinite nor NaN. *)
Definition finite_float (B : binary) (x : N) : bool := x mod 2 ^ (ebits B + mbits B) <? infinity B.
Fixpoint finite (t : ty) {struct t} : val -> bool :=
  match t with
  | TF32 => fun v => match v with VN x => finite_float binary32 x | _ => false end
  | TF64 => fun v => match v with VN x => finite_float binary64 x | _ => false end
  | TOpt t' => fun v => match v with VNone => true | VSome x => finite t' x | _ => false end
  | TBox t' => finite t'
  | TVec t' | TArray _ t' | TSet t' => fun v => match v with VList vs => forallb (finite t') vs | _ => false end
  | TTup ts => fun v => match v with VList vs => all2 (map finite ts) vs | _ => false end
  | TPack _ fs => fun v => match v with VList vs => all2 (map (fun ft => finite (snd ft)) fs) vs | _ => false end
  | TStruct _ fs => fun v => match v with VList vs => all2 (map (fun ft => finite (snd ft)) fs) vs | _ => false end
  | TMap _ tv => fun v => match v with VMap kvs => forallb (fun kv => finite tv (snd kv)) kvs | _ => false end
  | TTag kt tags =>
      fun v => match v with VVar i VUnit => match nth_error tags i with Some k => finite kt k | None => false end | _ => false end
  | TEnum _ _ vs =>
      fun v => match v with
               | VVar i x => match nth_error (map (fun tv => finite (snd tv)) vs) i with Some f => f x | None => false end
               | _ => false end
  | _ => fun _ => true
  end.
