(** What dynamic value a JSON document is, independently of the parser. *)
From Verif Require Import Base Options Int Utf8 Types Json JsonNum JsonSpec Value.
Local Open Scope N_scope.

(** [w] is the least width with the property. *)
Definition least (fits : iw -> Prop) (w : iw) : Prop :=
  fits w /\ forall w', fits w' -> bits w <= bits w'.

(** The number for an integer: unsigned unless there is a minus sign, and of the least type that
    can hold it. *)
Inductive number_of : bool -> N -> number -> Prop :=
| number_pos n w : least (fun w => n < 2 ^ bits w) w -> number_of false n (NU w n)
| number_neg n w : least (fun w => in_sb (bits w) (- Z.of_N n) = true) w -> number_of true n (NI w (- Z.of_N n)).

(** The value of a document that has no number with a fraction or an exponent *)
Inductive jvalue : jtree -> value -> Prop :=
| jv_null : jvalue JNull UUnit
| jv_bool b : jvalue (JBool b) (UBool b)
| jv_int neg n x : number_of neg n x -> jvalue (JInt neg n) (UNum x)
| jv_str cs : jvalue (JStr cs) (UStr (str_bytes cs))
| jv_arr l xs : Forall2 jvalue l xs -> jvalue (JArr l) (USeq xs)
| jv_obj l xs : Forall2 (fun m x => fst x = UStr (str_bytes (fst m)) /\ jvalue (snd m) (snd x)) l xs ->
    jvalue (JObj l) (UMap xs).

(** The types for which decoding through a buffered value works as decoding directly does: see
    the refuted claims of C68 for the others. *)
Fixpoint jbuf (t : ty) : bool :=
  match t with
  | TBool | TU _ | TI _ | TUsize | TIsize | TNonZero _ | TStr => true
  | TBox t' | TVec t' | TArray _ t' | TSet t' => jbuf t'
  | TTup ts => forallb jbuf ts
  | TMap _ v => jbuf v
  | TStruct _ fs => forallb (fun ft => jbuf (snd ft)) fs
  | TTag kt _ => jbuf kt
  | _ => false
  end.

(** The number [ds.fs * 10 ^ e] is [(base + m / 10 ^ exp) * 10 ^ e]. *)
Definition parts_exact (ds fs : bytes) (e : Z) (q : parts) : Prop :=
  pt_base q = JsonNumSpec.value ds /\
  (exists z, JsonNumSpec.value fs = pt_m q * 10 ^ z /\ pt_exp q + z = lenN fs) /\
  pt_e q = e.

(** A number: whether it ends depends on what follows. *)
Definition numeric (j : jtree) : bool := match j with JInt _ _ | JNum _ _ _ _ => true | _ => false end.
