(** What vectors and boxes over [Disabled] are for a program: lists that stay empty. *)
From Verif Require Import Base System Disabled.
Local Open Scope N_scope.

(** What is answered: all that may need memory fails, also when it would need none. *)
Definition answer (o : sop) : sreply :=
  match o with
  | PNew _ | PClear _ | PDrop _ => RDone
  | PPop _ => RPopped None
  | PIntoStd _ => RStd [] 0
  | _ => RFailed
  end.

(** The replies of a run *)
Definition replies {W} (r : sout (list sreply * W)) : sout (list sreply) :=
  match r with SDone (rs, _) => SDone rs | SPanic => SPanic | SUndef => SUndef end.

(** The calls that need memory, if the vectors are empty, and those that never do. *)
Definition demanding (o : sop) : Prop :=
  match o with
  | PWithCapacity _ n | PReserve _ n => n <> 0
  | PExtendFromSlice _ xs => xs <> []
  | PExtend _ _ | PFromStd _ _ _ => False
  | _ => True
  end.
Definition takes_std (o : sop) : Prop := match o with PFromStd _ _ _ => True | _ => False end.
