(** What the theorems about dynamic values in the formats say. *)
From Verif Require Import Base Options Int Utf8 Types Storage StorageSpec Fmt FmtSpec Desc Value ValueSpec Any.
Local Open Scope N_scope.

(** A value with [usize] and [isize] replaced by the integers of the same width. *)
Definition num_norm (p : plat) (n : number) : number :=
  match n with
  | NUsize x => NU (usize_iw p) x
  | NIsize z => NI (usize_iw p) z
  | _ => n
  end.

Fixpoint norm (p : plat) (x : value) {struct x} : value :=
  match x with
  | UNum n => UNum (num_norm p n)
  | USeq xs => USeq (map (norm p) xs)
  | UMap es => UMap (map (fun '(k, y) => (norm p k, norm p y)) es)
  | UVariant a b => UVariant (norm p a) (norm p b)
  | UOpt (Some y) => UOpt (Some (norm p y))
  | _ => x
  end.

(** No [usize] or [isize] in it. *)
Definition num_sized (n : number) : bool :=
  match n with NUsize _ | NIsize _ => false | _ => true end.

Fixpoint sized (x : value) {struct x} : bool :=
  match x with
  | UNum n => num_sized n
  | USeq xs => forallb sized xs
  | UMap es => forallb (fun '(k, y) => sized k && sized y) es
  | UVariant a b => sized a && sized b
  | UOpt (Some y) => sized y
  | _ => true
  end.

(** No packed structs. *)
Definition unpacked (t : ty) : bool := packs (fun _ => false) t.

(** Types that can be read from a buffer: packed structs only with the options of the
    buffer. *)
Definition buf_ok (p : plat) (o : N) (t : ty) : Prop :=
  unpacked t = true \/ (o = BUFFER_OPTIONS /\ packs_ok p o t).
