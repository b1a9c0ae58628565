(** A universe of the types that implement [Encode]/[Decode] and of their values:
    crates/musli-core/src/impls and the types produced by the derive macros of
    crates/musli-macros. *)
From Verif Require Import Base Options Int Utf8.
Local Open Scope N_scope.

(** Values of all types of the universe. Floats are their bit patterns, characters
    their scalar values; smart pointers are transparent. *)
Inductive val :=
| VUnit
| VBool (b : bool)
| VN (n : N)                     (* unsigned integers, floats (bits), characters *)
| VZ (z : Z)                     (* signed integers *)
| VBytes (bs : bytes)            (* strings and byte strings *)
| VNone
| VSome (v : val)
| VList (vs : list val)          (* sequences, arrays, tuples, struct fields in order *)
| VMap (kvs : list (val * val))
| VVar (i : nat) (v : val).      (* [i]-th variant of an enum *)

(** Equality of values. *)
Fixpoint val_eqb (a b : val) {struct a} : bool :=
  match a, b with
  | VUnit, VUnit | VNone, VNone => true
  | VBool x, VBool y => Bool.eqb x y
  | VN x, VN y => N.eqb x y
  | VZ x, VZ y => Z.eqb x y
  | VBytes x, VBytes y => if list_eq_dec N.eq_dec x y then true else false
  | VSome x, VSome y => val_eqb x y
  | VList x, VList y =>
      (fix go (x y : list val) : bool :=
         match x, y with
         | [], [] => true
         | a :: x', b :: y' => val_eqb a b && go x' y'
         | _, _ => false
         end) x y
  | VMap x, VMap y =>
      (fix go (x y : list (val * val)) : bool :=
         match x, y with
         | [], [] => true
         | (a, c) :: x', (b, d) :: y' => val_eqb a b && val_eqb c d && go x' y'
         | _, _ => false
         end) x y
  | VVar i x, VVar j y => Nat.eqb i j && val_eqb x y
  | _, _ => false
  end.

(** What the derive macro knows about a field: its name (tag) in the mode in use,
    the value of [#[musli(default)]] if present and the
    [#[musli(skip_encoding_if)]] predicate (constantly false if absent). *)
Record finfo := { fname : val; fdefault : option val; fskip : val -> bool }.

Inductive ty :=
| TUnit                          (* () and PhantomData, impls/mod.rs:33-101 *)
| TBool                          (* impls/mod.rs:354-392 *)
| TChar                          (* impls/mod.rs:393-430 *)
| TU (w : iw)                    (* u8..u128, impls/mod.rs:316-352, 432-445 *)
| TI (w : iw)                    (* i8..i128 *)
| TUsize                         (* usize *)
| TIsize                         (* isize *)
| TF32                           (* f32 *)
| TF64                           (* f64 *)
| TNonZero (w : iw)              (* NonZeroU8..NonZeroU128, impls/mod.rs:133-195 *)
| TStr                           (* str, String, impls/mod.rs:446-510, impls/alloc.rs:36-110 *)
| TBytes                         (* #[musli(bytes)] Vec<u8>, impls/mod.rs:857-905 *)
| TArr (n : N)                   (* #[musli(bytes)] [u8; N], Ipv4Addr, Ipv6Addr *)
| TOpt (t : ty)                  (* Option, impls/mod.rs:651-697 *)
| TBox (t : ty)                  (* Box, Rc, Arc, impls/alloc.rs:683-785 *)
| TVec (t : ty)                  (* Vec, VecDeque, slices, impls/alloc.rs:387-475 *)
| TArray (n : N) (t : ty)        (* [T; N], impls/mod.rs:212-269 *)
| TSet (t : ty)                  (* BTreeSet, HashSet, impls/alloc.rs:275-385 *)
| TTup (ts : list ty)            (* tuples and ranges, impls/tuples.rs:42-97 *)
| TMap (k v : ty)                (* BTreeMap, HashMap, impls/alloc.rs:476-620 *)
| TPack (contig : bool) (fs : list (option val * ty))
    (* derived struct with #[musli(packed)]; a field may have a [#[musli(default)]]
       value; [contig]: laid out without padding in declaration order and without
       drop glue, musli-macros/src/internals/packed.rs:27-64. Not modelled:
       skip_encoding_if on packed fields *)
| TStruct (kt : ty) (fs : list (finfo * ty))
    (* derived struct with named or indexed fields; names have type [kt] *)
| TTag (kt : ty) (tags : list val)
    (* derived enum whose variants are all empty: only the tag is written *)
| TEnum (fast : bool) (kt : ty) (vs : list (val * ty)).
    (* derived default-tagged enum; variants are a tag and a body. A body that is
       a [TStruct] with skipped fields is that of a transparent variant around a
       struct type: an inline variant with skip_encoding_if announces a wrong
       length, see Derive.v and C29_variant_refuted.
       [fast]: tag and body go through [Encoder::encode], as in the
       implementation for [Result], impls/mod.rs:700-757 *)

(** Element-wise check of a list of values. *)
Fixpoint all2 (fs : list (val -> bool)) (vs : list val) : bool :=
  match fs, vs with
  | [], [] => true
  | f :: fs', v :: vs' => f v && all2 fs' vs'
  | _, _ => false
  end.

(** No two equal values in the list. *)
Fixpoint distinct (vs : list val) : bool :=
  match vs with
  | [] => true
  | v :: r => negb (existsb (val_eqb v) r) && distinct r
  end.

(** A length that a collection can have on the target. *)
Definition len_ok {A} (p : plat) (l : list A) : bool := lenN l <? 2 ^ usize_bits p.

Definition in_sb (tb : N) (z : Z) : bool :=
  ((- 2 ^ (Z.of_N tb - 1) <=? z) && (z <? 2 ^ (Z.of_N tb - 1)))%Z.

(** [v] is a value of type [t]. *)
Fixpoint has_type (p : plat) (t : ty) {struct t} : val -> bool :=
  match t with
  | TUnit => fun v => match v with VUnit => true | _ => false end
  | TBool => fun v => match v with VBool _ => true | _ => false end
  | TChar => fun v => match v with VN c => char_valid c | _ => false end
  | TU w => fun v => match v with VN n => n <? 2 ^ bits w | _ => false end
  | TI w => fun v => match v with VZ z => in_sb (bits w) z | _ => false end
  | TUsize => fun v => match v with VN n => n <? 2 ^ usize_bits p | _ => false end
  | TIsize => fun v => match v with VZ z => in_sb (usize_bits p) z | _ => false end
  | TF32 => fun v => match v with VN n => n <? 2 ^ 32 | _ => false end
  | TF64 => fun v => match v with VN n => n <? 2 ^ 64 | _ => false end
  | TNonZero w =>
      fun v => match v with VN n => (n <? 2 ^ bits w) && negb (n =? 0) | _ => false end
  | TStr =>
      fun v => match v with VBytes bs => bytes_ok bs && utf8_valid bs && len_ok p bs
                          | _ => false end
  | TBytes => fun v => match v with VBytes bs => bytes_ok bs && len_ok p bs | _ => false end
  | TArr n => fun v => match v with VBytes bs => bytes_ok bs && (lenN bs =? n) | _ => false end
  | TOpt t => fun v => match v with VNone => true | VSome x => has_type p t x | _ => false end
  | TBox t => has_type p t
  | TVec t =>
      fun v => match v with VList vs => forallb (has_type p t) vs && len_ok p vs
                          | _ => false end
  | TArray n t =>
      fun v => match v with VList vs => forallb (has_type p t) vs && (lenN vs =? n)
                          | _ => false end
  | TSet t =>
      fun v => match v with
               | VList vs => forallb (has_type p t) vs && len_ok p vs && distinct vs
               | _ => false end
  | TTup ts => fun v => match v with VList vs => all2 (map (has_type p) ts) vs | _ => false end
  | TMap tk tv =>
      fun v => match v with
               | VMap kvs => forallb (fun kv => has_type p tk (fst kv) && has_type p tv (snd kv)) kvs
                             && len_ok p kvs && distinct (map fst kvs)
               | _ => false end
  | TPack _ fs =>
      fun v => match v with
               | VList vs => all2 (map (fun ft => has_type p (snd ft)) fs) vs
               | _ => false end
  | TStruct _ fs =>
      fun v => match v with
               | VList vs => all2 (map (fun ft => has_type p (snd ft)) fs) vs
               | _ => false end
  | TTag _ tags =>
      fun v => match v with VVar i VUnit => Nat.ltb i (length tags) | _ => false end
  | TEnum _ _ vs =>
      fun v => match v with
               | VVar i x =>
                   match nth_error (map (fun tv => has_type p (snd tv)) vs) i with
                   | Some f => f x
                   | None => false
                   end
               | _ => false end
  end.

Definition allP (l : list Prop) : Prop := fold_right and True l.

(** Conditions the compiler and the author of a schema guarantee: names and tags are
    of the declared type and pairwise different (otherwise the generated [match]
    has unreachable arms), there are no more of them than a [usize] can
    count, default values are values of the field's type, and a
    field is only left out when its value is the default. *)
Fixpoint wf (p : plat) (t : ty) {struct t} : Prop :=
  match t with
  | TOpt t | TBox t | TVec t | TSet t => wf p t
  | TArray n t => wf p t /\ n < 2 ^ usize_bits p
  | TArr n => n < 2 ^ usize_bits p
  | TTup ts => allP (map (wf p) ts) /\ len_ok p ts = true
  | TPack _ fs =>
      allP (map (fun ft => wf p (snd ft)) fs) /\ len_ok p fs = true /\
      (forall ft d, In ft fs -> fst ft = Some d -> has_type p (snd ft) d = true)
  | TMap k v => wf p k /\ wf p v
  | TStruct kt fs =>
      wf p kt /\ allP (map (fun ft => wf p (snd ft)) fs) /\
      len_ok p fs = true /\
      forallb (fun ft => has_type p kt (fname (fst ft))) fs = true /\
      distinct (map (fun ft => fname (fst ft)) fs) = true /\
      (forall ft d, In ft fs -> fdefault (fst ft) = Some d -> has_type p (snd ft) d = true) /\
      (forall ft v, In ft fs -> fskip (fst ft) v = true -> fdefault (fst ft) = Some v)
  | TTag kt tags =>
      wf p kt /\ forallb (has_type p kt) tags = true /\ distinct tags = true
  | TEnum _ kt vs =>
      wf p kt /\ allP (map (fun tv => wf p (snd tv)) vs) /\
      forallb (fun tv => has_type p kt (fst tv)) vs = true /\
      distinct (map fst vs) = true
  | _ => True
  end.

(** ** Shared pieces of the generated and hand-written implementations *)

(** Encode the fields of a tuple-like value, one encoder per field. Values that do
    not have the shape of the type cannot occur in a typed program; they are [Err]. *)
Fixpoint enc_list (es : list (val -> res bytes)) (vs : list val) : res bytes :=
  match es, vs with
  | [], [] => Ok []
  | e :: es', v :: vs' =>
      let* a := e v in let* b := enc_list es' vs' in Ok (a ++ b)
  | _, _ => Err
  end.

(** Decode one value with each decoder in turn. *)
Fixpoint dec_list (ds : list (dec val)) : dec (list val) :=
  match ds with
  | [] => fun bs => Ok ([], bs)
  | d :: ds' =>
      fun bs =>
        let* (v, r) := d bs in
        let* (vs, r') := dec_list ds' r in
        Ok (v :: vs, r')
  end.

(** [n] values one after the other, in reverse order of the accumulator. *)
Definition dec_count (n : N) (d : dec val) : dec (list val) :=
  fun bs =>
    let* (acc, r) :=
      iterN n (fun s => let* (v, r) := d (snd s) in Ok (v :: fst s, r)) ([], bs) in
    Ok (rev acc, r).

(** A field of a struct that is being decoded. *)
Definition slots := list (option val).

Fixpoint set_slot (i : nat) (v : val) (s : slots) : slots :=
  match s, i with
  | [], _ => []
  | _ :: r, O => Some v :: r
  | x :: r, S j => x :: set_slot j v r
  end.

(** Position of the first matching name: the arms of the generated [match]. *)
Fixpoint find_name (k : val) (names : list val) : option nat :=
  match names with
  | [] => None
  | n :: r => if val_eqb k n then Some O else option_map S (find_name k r)
  end.

(** Fill in missing fields: musli-macros/src/de.rs:1276-1310, [default] or
    [expected_tag] error. *)
Fixpoint fill (fs : list finfo) (s : slots) : res (list val) :=
  match fs, s with
  | [], [] => Ok []
  | f :: fs', x :: s' =>
      let* v := match x with
                | Some v => Ok v
                | None => match fdefault f with Some d => Ok d | None => Err end
                end in
      let* vs := fill fs' s' in
      Ok (v :: vs)
  | _, _ => Err
  end.

(** The fields that are written, musli-macros/src/en.rs:282-395 *)
Fixpoint enc_fields (ek : val -> res bytes) (fs : list (finfo * (val -> res bytes)))
    (vs : list val) : res bytes :=
  match fs, vs with
  | [], [] => Ok []
  | (f, e) :: fs', v :: vs' =>
      if fskip f v then enc_fields ek fs' vs'
      else
        let* a := ek (fname f) in
        let* b := e v in
        let* c := enc_fields ek fs' vs' in
        Ok (a ++ b ++ c)
  | _, _ => Err
  end.

(** The announced number of fields: musli-macros/src/en.rs [length_test], a constant
    without [skip_encoding_if], otherwise one more for each field whose test holds. *)
Fixpoint count_fields (fs : list finfo) (vs : list val) : N :=
  match fs, vs with
  | f :: fs', v :: vs' => (if fskip f v then 0 else 1) + count_fields fs' vs'
  | _, _ => 0
  end.

(** One entry of a struct that is being decoded, musli-macros/src/de.rs:1083-1368: decode the
    name, dispatch on it, decode the value into its slot or skip it. *)
Definition dec_field (dk : dec val) (names : list val) (ds : list (dec val))
    (skip : dec unit) (s : slots * bytes) : res (slots * bytes) :=
  let* (k, r) := dk (snd s) in
  match find_name k names with
  | Some i =>
      match nth_error ds i with
      | Some d => let* (v, r') := d r in Ok (set_slot i v (fst s), r')
      | None => Err
      end
  | None => let* (_, r') := skip r in Ok (fst s, r')
  end.

(** Insert into a map: a later entry replaces an earlier one with an equal key
    (BTreeMap::insert / HashMap::insert). The order of the list is the order of first
    insertion. *)
Fixpoint map_insert (k v : val) (m : list (val * val)) : list (val * val) :=
  match m with
  | [] => [(k, v)]
  | (k', v') :: r => if val_eqb k k' then (k', v) :: r else (k', v') :: map_insert k v r
  end.

(** Insert into a set: an element that is already there is not replaced. *)
Definition set_insert (v : val) (s : list val) : list val :=
  if existsb (val_eqb v) s then s else s ++ [v].
