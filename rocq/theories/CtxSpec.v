(** What a tracing context should report, stated on histories of operations without the state of [Ctx.v]. *)
From Verif Require Import Base Options Int Ctx.
Local Open Scope N_scope.

(** Types are part of paths only on request ([with_type]). *)
Definition of_type (s : step) : bool :=
  match s with AtStruct _ | AtEnum _ => true | _ => false end.

(** The steps that were entered and not left, outermost first; [None] if more was left
    than entered. *)
Fixpoint true_path (ty : bool) (q : list step) (h : history) : option (list step) :=
  let left (k : list step -> option (list step)) :=
    match q with [] => None | _ => k (removelast q) end in
  match h with
  | [] => Some q
  | (Enter s, _) :: h' => true_path ty (if of_type s && negb ty then q else q ++ [s]) h'
  | (EnterKey k, _) :: h' => true_path ty (q ++ [AtKey k]) h'
  | (Leave, _) :: h' => left (fun q => true_path ty q h')
  | (LeaveType, _) :: h' => if ty then left (fun q => true_path ty q h') else true_path ty q h'
  | (Clear, _) :: h' => true_path ty [] h'
  | _ :: h' => true_path ty q h'
  end.

(** The position: bytes advanced since the last [clear] or since what was restored. *)
Definition moved (p : plat) (o : op) (pos : N) : N :=
  match o with
  | Advance n => (pos + n) mod 2 ^ usize_bits p
  | Restore m => m
  | Clear => 0
  | _ => pos
  end.

(** The messages since the last [clear], with the positions at which they were reported; those for which
    there was no memory are missing. *)
Fixpoint said (p : plat) (pos : N) (l : list (N * N * bytes)) (h : history) : list (N * N * bytes) :=
  match h with
  | [] => l
  | (o, (f, r)) :: h' =>
      said p (moved p o pos)
        match o with
        | Say m => if f && r then l ++ [(pos, pos, m)] else l
        | SayAt from m => if f && r then l ++ [(from, pos, m)] else l
        | Clear => []
        | _ => l
        end h'
  end.

(** The last message, unless cleared or taken. *)
Fixpoint last_said (l : option bytes) (h : history) : option bytes :=
  match h with
  | [] => l
  | (Say m, _) :: h' | (SayAt _ m, _) :: h' => last_said (Some m) h'
  | (Clear, _) :: h' | (Take, _) :: h' => last_said None h'
  | _ :: h' => last_said l h'
  end.

(** Memory does not run out. *)
Definition roomy (h : history) : Prop := Forall (fun x => snd x = (true, true)) h.

(** Keys can be formatted; when a step did not fit, no further step fits, and
    the context is not cleared, before the steps that did not fit are left. *)
Definition calm (p : plat) (ty : bool) (h : history) : Prop :=
  forall h1 o f r h2 c, h = h1 ++ (o, (f, r)) :: h2 -> acts p h1 (fresh ty) = Ok c ->
    match o with
    | EnterKey _ => f = true /\ (r = true -> c_cap c = 0)
    | Enter _ => r = true -> c_cap c = 0
    | Clear => c_cap c = 0
    | _ => True
    end.

(** An identifier of a field or variant. *)
Definition name (n : bytes) : Prop :=
  n <> [] /\ Forall (fun b => b <> 32 /\ b <> 46 /\ b <> 91) n /\ (hd 0 n < 48 \/ 57 < hd 0 n).

(** Paths of fields, indexes and variants in which no variant stands directly in another one. *)
Fixpoint plain (after_variant : bool) (l : list step) : Prop :=
  match l with
  | [] => True
  | AtVariant n :: k => after_variant = false /\ name n /\ plain true k
  | AtNamed n :: k => name n /\ plain false k
  | AtUnnamed _ :: k | AtIndex _ :: k => plain false k
  | _ => False
  end.

(** The text that a step brings along *)
Definition step_text (s : step) : bytes :=
  match s with AtStruct n | AtEnum n | AtVariant n | AtNamed n | AtKey n => n | AtUnnamed _ | AtIndex _ => [] end.
