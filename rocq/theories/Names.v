(** Model of the names of fields and variants: crates/musli-macros/src/internals/name.rs and expand_name in
    crates/musli-macros/src/expander.rs:395-427.

    Simplifications: a string is the list of its characters; a count of words does not overflow. What
    the standard library says about the case of characters is a parameter, [ascii] is what it says about ASCII. *)
From Coq Require Import String.
From Verif Require Import Base Options Int Utf8 Types.
Local Open Scope N_scope.

(** name.rs:6-19 *)
Inductive name_all := NIndex | NName | NPascal | NCamel | NSnake | NScreamingSnake | NKebab | NScreamingKebab.

(** [char::is_uppercase], [char::to_uppercase], [char::to_lowercase] *)
Record cases := { is_upper : N -> bool; to_upper : N -> list N; to_lower : N -> list N }.

Definition ascii : cases := {|
  is_upper c := (65 <=? c) && (c <=? 90);
  to_upper c := if (97 <=? c) && (c <=? 122) then [c - 32] else [c];
  to_lower c := if (65 <=? c) && (c <=? 90) then [c + 32] else [c]
|}.

(** [NameAll::parse], name.rs:48-60 *)
Definition parse (s : string) : option name_all :=
  if String.eqb s "index" then Some NIndex
  else if String.eqb s "name" then Some NName
  else if String.eqb s "PascalCase" then Some NPascal
  else if String.eqb s "camelCase" then Some NCamel
  else if String.eqb s "snake_case" then Some NSnake
  else if String.eqb s "SCREAMING_SNAKE_CASE" then Some NScreamingSnake
  else if String.eqb s "kebab-case" then Some NKebab
  else if String.eqb s "SCREAMING-KEBAB-CASE" then Some NScreamingKebab
  else None.

(** [Display], name.rs:144-157 *)
Definition display (st : name_all) : string :=
  match st with
  | NIndex => "index"
  | NName => "name"
  | NPascal => "PascalCase"
  | NCamel => "camelCase"
  | NSnake => "snake_case"
  | NScreamingSnake => "SCREAMING_SNAKE_CASE"
  | NKebab => "kebab-case"
  | NScreamingKebab => "SCREAMING-KEBAB-CASE"
  end.

(** [feed], name.rs:64-95 *)
Definition feed (cs : cases) (st : name_all) (open : bool) (count : N) (c : N) : list N :=
  match st with
  | NPascal => if open then to_upper cs c else to_lower cs c
  | NCamel => if open && (0 <? count) then to_upper cs c else to_lower cs c
  | NSnake | NKebab => to_lower cs c
  | NScreamingSnake | NScreamingKebab => to_upper cs c
  | NIndex | NName => [c]
  end.

(** [prefix], name.rs:97-103 *)
Definition prefix (st : name_all) : list N :=
  match st with
  | NSnake | NScreamingSnake => [95]
  | NKebab | NScreamingKebab => [45]
  | _ => []
  end.

(** The loop of [NameAll::apply], name.rs:109-132 *)
Fixpoint rename (cs : cases) (st : name_all) (count : N) (group : bool) (input : list N) : list N :=
  match input with
  | [] => []
  | c :: r =>
      if c =? 95 then rename cs st (if group then count else count + 1) true r
      else
        let (group, count) := if is_upper cs c && negb group then (true, count + 1) else (group, count) in
        (if group && (0 <? count) then prefix st else []) ++ feed cs st group count c ++ rename cs st count false r
  end.

(** [NameAll::apply], name.rs:63-135 *)
Definition apply (cs : cases) (st : name_all) (input : list N) : option (list N) :=
  match st with
  | NIndex => None
  | NName => Some input
  | _ => Some (rename cs st 0 true input)
  end.

(** [trim_start_matches("r#")], expander.rs:408: as often as it is there *)
Fixpoint trim_raw (ident : list N) : list N :=
  match ident with
  | a :: b :: r => if (a =? 114) && (b =? 35) then trim_raw r else ident
  | _ => ident
  end.

(** A field or a variant: its attribute [#[musli(name = ..)]], its index and its identifier. *)
Record member := { m_name : option val; m_index : N; m_ident : option (list N) }.

(** [expand_name], expander.rs:395-427. A name is a string or an index. *)
Definition expand_name (cs : cases) (st : name_all) (m : member) : val :=
  match m_name m with
  | Some v => v
  | None =>
      match m_ident m with
      | Some ident =>
          match apply cs st (trim_raw ident) with
          | Some name => VBytes name
          | None => VN (m_index m)
          end
      | None => VN (m_index m)
      end
  end.
