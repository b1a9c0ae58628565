(** What the theorems about tagged enums say, in terms of types and values only. *)
From Verif Require Import Base Options Int Utf8 Types StorageSpec Storage FmtSpec Tagged AnySpec.
Local Open Scope N_scope.

(** The enum as a default-tagged one, which has the same values. *)
Definition plain (e : tenum) : ty := TEnum false (e_name e) (e_vars e).

(** What the compiler and the author of the enum guarantee: the keys are values of their type and
    differ, names and bodies are as for other enums. *)
Definition ewf (p : plat) (e : tenum) : Prop :=
  wf p (plain e) /\ wf p (e_key e) /\
  has_type p (e_key e) (e_tag e) = true /\ has_type p (e_key e) (e_content e) = true /\
  e_tag e <> e_content e.

(** A field that is always written and has no default. *)
Definition always (name : val) : finfo := {| fname := name; fdefault := None; fskip := fun _ => false |}.

(** The fields of a variant whose tag is a field in front of the others, or among them. *)
Definition with_tag (e : tenum) (fs1 fs2 : list (finfo * ty)) : ty :=
  TStruct (e_key e) (fs1 ++ (always (e_tag e), e_name e) :: fs2).

(** The bodies are structs with the type of names that the tag has, none of them the tag itself:
    together with the tag they form a struct. *)
Definition internal_ok (p : plat) (e : tenum) : Prop :=
  forall name t, In (name, t) (e_vars e) -> exists fs, t = TStruct (e_key e) fs /\ wf p (with_tag e [] fs).

(** Every type that occurs in the enum satisfies [P]. *)
Definition each_ty (P : ty -> Prop) (e : tenum) : Prop :=
  P (e_key e) /\ P (e_name e) /\ forall name t, In (name, t) (e_vars e) -> P t.

(** A field that is neither the tag nor the content, with leaves that satisfy [okleaf]. *)
Definition other (p : plat) (okleaf : ty -> bool) (e : tenum) (ft : finfo * ty) : Prop :=
  wf p (snd ft) /\ leaves okleaf (snd ft) = true /\ has_type p (e_key e) (fname (fst ft)) = true /\
  fname (fst ft) <> e_tag e /\ fname (fst ft) <> e_content e.

(** The values [vs] are those of the fields [fs]. *)
Definition fields_of (p : plat) (fs : list (finfo * ty)) (vs : list val) : Prop :=
  length fs = length vs /\ all2 (map (fun ft => has_type p (snd ft)) fs) vs = true.
