(** What it means for announced lengths to be right. *)
From Coq Require Import List NArith Bool.
From Verif Require Import Base Derive.
Import ListNotations.
Open Scope N_scope.

Fixpoint all (ps : list Prop) : Prop :=
  match ps with [] => True | p :: t => p /\ all t end.

(** Every map that announces a length has that many entries. *)
Fixpoint honest (c : call) : Prop :=
  match c with
  | CAtom | COpt None => True
  | COpt (Some x) | CVariant x => honest x
  | CSeq xs | CPack xs => all (map honest xs)
  | CMap hint es =>
      (hint = None \/ hint = Some (lenN es))
      /\ all (map (fun e => honest (fst e) /\ honest (snd e)) es)
  end.

(** A variant of an enum of the default kind with a skip_encoding_if field in it
    writes exactly one field; one of an adjacently tagged enum, exactly two.
    Everything that is written is like that. *)
Fixpoint sound (x : src) : Prop :=
  match x with
  | SAtom | SOpt None => True
  | SOpt (Some y) | SBox y | SRef y => sound y
  | SSeq xs => all (map sound xs)
  | SMap es => all (map (fun e => sound (fst e) /\ sound (snd e)) es)
  | SStruct b => sound_body None b
  | SEnum TagEmpty _ => True
  | SEnum TagDefault b => sound_body (Some 1) b
  | SEnum TagAdjacent b => sound_body (Some 2) b
  | SEnum TagUntagged b | SEnum TagInternal b => sound_body None b
  end
with sound_body (n : option N) (b : body) : Prop :=
  match b with
  | BTransparent _ y => sound y
  | BPacked fs => all (map sound fs)
  | BTagged fs =>
      (match n with
       | Some k => dynamic fs = true -> count fs = k
       | None => True
       end)
      /\ all (map (fun f => if written f then sound (snd f) else True) fs)
  end.

(** A type without skip_encoding_if in the variants of such enums. *)
Fixpoint plain (x : src) : Prop :=
  match x with
  | SAtom | SOpt None => True
  | SOpt (Some y) | SBox y | SRef y => plain y
  | SSeq xs => all (map plain xs)
  | SMap es => all (map (fun e => plain (fst e) /\ plain (snd e)) es)
  | SStruct b | SEnum TagUntagged b | SEnum TagInternal b => plain_body false b
  | SEnum TagEmpty b | SEnum TagDefault b | SEnum TagAdjacent b => plain_body true b
  end
with plain_body (variant : bool) (b : body) : Prop :=
  match b with
  | BTransparent _ y => plain y
  | BPacked fs => all (map plain fs)
  | BTagged fs =>
      (variant = true -> dynamic fs = false) /\ all (map (fun f => plain (snd f)) fs)
  end.
