(** What renaming does: it takes an identifier apart into words and writes them in another way. *)
From Verif Require Import Base Options Int Utf8 Types Names.
Local Open Scope N_scope.

(** An identifier and its words: underscores separate words and belong to none; a word starts after an underscore or at
    an uppercase letter, and has neither after its first character. *)
Definition inner (cs : cases) (t : list N) : Prop := Forall (fun x => x <> 95 /\ is_upper cs x = false) t.
Definition boundary (cs : cases) (r : list N) : Prop :=
  match r with [] => True | x :: _ => x = 95 \/ is_upper cs x = true end.

Inductive splits (cs : cases) : list N -> list (list N) -> Prop :=
| splits_nil : splits cs [] []
| splits_underscore s ws : splits cs s ws -> splits cs (95 :: s) ws
| splits_word c t r ws : c <> 95 -> inner cs t -> boundary cs r -> splits cs r ws ->
    splits cs (c :: t ++ r) ((c :: t) :: ws).

Definition lower (cs : cases) (w : list N) : list N := concat (map (to_lower cs) w).
Definition upper (cs : cases) (w : list N) : list N := concat (map (to_upper cs) w).
Definition capital (cs : cases) (w : list N) : list N :=
  match w with c :: t => to_upper cs c ++ lower cs t | [] => [] end.

(** Words with something between any two. *)
Fixpoint join (sep : list N) (ws : list (list N)) : list N :=
  match ws with
  | [] => []
  | [w] => w
  | w :: r => w ++ sep ++ join sep r
  end.

(** What the words look like in each style. *)
Definition render (cs : cases) (st : name_all) (ws : list (list N)) : list N :=
  match st with
  | NPascal => concat (map (capital cs) ws)
  | NCamel => match ws with [] => [] | w :: r => lower cs w ++ concat (map (capital cs) r) end
  | NSnake => join [95] (map (lower cs) ws)
  | NScreamingSnake => join [95] (map (upper cs) ws)
  | NKebab => join [45] (map (lower cs) ws)
  | NScreamingKebab => join [45] (map (upper cs) ws)
  | NIndex | NName => []
  end.

(** Words of ordinary identifiers: a lowercase letter of ASCII, then such letters and digits. *)
Definition letter (c : N) : Prop := 97 <= c <= 122.
Definition digit (c : N) : Prop := 48 <= c <= 57.
Definition plain (w : list N) : Prop :=
  match w with c :: t => letter c /\ Forall (fun x => letter x \/ digit x) t | [] => False end.

(** Identifiers as the language's conventions want them, of fields ([false]) and variants ([true]). *)
Definition ident (variant : bool) (ws : list (list N)) : list N :=
  if variant then concat (map (capital ascii) ws) else join [95] ws.
Definition conventional (variant : bool) (s : list N) : Prop :=
  exists ws, ws <> [] /\ Forall plain ws /\ s = ident variant ws.
