(** What strings over [System] are for a program: lists of characters. *)
From Verif Require Import Base Utf8 System SysString.
Local Open Scope N_scope.

Inductive thing := Text (s : list N) | Bytes (xs : bytes).
Definition thing_at (ts : list (option thing)) (i : nat) (x : thing) : Prop := nth_error ts i = Some (Some x).
Definition chars (s : list N) : Prop := Forall (fun c => char_valid c = true) s.

(** The replies that a call may have, and what it does. What needs memory may fail: then the string is what it was. *)
Inductive tcall : list (option thing) -> strop -> strreply -> list (option thing) -> Prop :=
| tc_new ts : tcall ts SNew TDone (ts ++ [Some (Text [])])
| tc_with ts n : tcall ts (SWithCapacity n) TDone (ts ++ [Some (Text [])])
| tc_with_fails ts n : tcall ts (SWithCapacity n) TFailed (ts ++ [None])
| tc_from_std ts s cap : tcall ts (SFromStd s cap) TDone (ts ++ [Some (Text s)])
| tc_push ts i s c : thing_at ts i (Text s) -> tcall ts (SPushChar i c) TDone (set_at ts i (Some (Text (s ++ [c]))))
| tc_push_fails ts i s c : thing_at ts i (Text s) -> tcall ts (SPushChar i c) TFailed ts
| tc_push_str ts i s s' : thing_at ts i (Text s) -> tcall ts (SPushStr i s') TDone (set_at ts i (Some (Text (s ++ s'))))
| tc_push_str_fails ts i s s' : thing_at ts i (Text s) -> tcall ts (SPushStr i s') TFailed ts
| tc_as_str ts i s : thing_at ts i (Text s) -> tcall ts (SAsStr i) (TText (str_bytes s)) ts
| tc_into_bytes ts i s : thing_at ts i (Text s) -> tcall ts (SIntoBytes i) TDone (set_at ts i (Some (Bytes (str_bytes s))))
| tc_from_utf8 ts i s : thing_at ts i (Bytes (str_bytes s)) -> chars s -> tcall ts (SFromUtf8 i) TDone (set_at ts i (Some (Text s)))
| tc_not_utf8 ts i xs : thing_at ts i (Bytes xs) -> (forall s, chars s -> str_bytes s <> xs) -> tcall ts (SFromUtf8 i) TNotUtf8 ts
| tc_into_std ts i s cap : thing_at ts i (Text s) -> lenN (str_bytes s) <= cap ->
    tcall ts (SIntoStd i) (TStd (str_bytes s) cap) (set_at ts i None)
| tc_drop ts i x : thing_at ts i x -> tcall ts (SDrop i) TDone (set_at ts i None)
| tc_collect ts ps : tcall ts (SCollect ps) TDone (ts ++ [Some (Text (concat ps))])
| tc_collect_fails ts ps : tcall ts (SCollect ps) TFailed (ts ++ [None])
| tc_new_bytes ts : tcall ts SNewBytes TDone (ts ++ [Some (Bytes [])])
| tc_extend ts i xs ys : thing_at ts i (Bytes xs) -> tcall ts (SExtendBytes i ys) TDone (set_at ts i (Some (Bytes (xs ++ ys))))
| tc_extend_fails ts i xs ys : thing_at ts i (Bytes xs) -> tcall ts (SExtendBytes i ys) TFailed ts.

Inductive tcalls : list (option thing) -> list strop -> list strreply -> list (option thing) -> Prop :=
| tcs_nil ts : tcalls ts [] [] ts
| tcs_cons ts o r ts1 os rs ts2 : tcall ts o r ts1 -> tcalls ts1 os rs ts2 -> tcalls ts (o :: os) (r :: rs) ts2.

(** The calls that a program can make: of what it has, with characters and strings that there are. *)
Definition tallowed (ts : list (option thing)) (o : strop) : Prop :=
  match o with
  | SNew | SWithCapacity _ | SNewBytes => True
  | SFromStd s cap => chars s /\ lenN (str_bytes s) <= cap /\ cap <= isize_max
  | SPushChar i c => char_valid c = true /\ exists s, thing_at ts i (Text s)
  | SPushStr i s' => chars s' /\ exists s, thing_at ts i (Text s)
  | SAsStr i | SIntoBytes i | SIntoStd i => exists s, thing_at ts i (Text s)
  | SFromUtf8 i | SExtendBytes i _ => exists xs, thing_at ts i (Bytes xs)
  | SDrop i => exists x, thing_at ts i x
  | SCollect ps => Forall chars ps
  end.
