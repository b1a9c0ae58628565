(** What readers and writers are supposed to do, without reference to their representation. *)
From Verif Require Import Base Options Int IO.
Local Open Scope N_scope.

(** The [n] bytes of the input at position [c]. *)
Definition sub (inp : bytes) (c n : N) : bytes :=
  firstn (N.to_nat n) (skipn (N.to_nat c) inp).

(** [n] more bytes may be consumed at position [c] under the allowances [ls]. *)
Definition permitted (inp : bytes) (c : N) (ls : list N) (n : N) : Prop :=
  c + n <= lenN inp /\ Forall (fun l => n <= l) ls.

(** A history of reader calls is right for the input [inp] if, starting at position [c] and under
    the allowances [ls] of the limits in scope, every event is what one
    expects. A failed call moves nothing, but may cost allowance. *)
Inductive right (inp : bytes) : N -> list N -> list (rop * event) -> Prop :=
| right_nil c ls : right inp c ls []
| right_skip c ls n h :
    permitted inp c ls n ->
    right inp (c + n) (map (fun l => l - n) ls) h ->
    right inp c ls ((UTake MSkip n, EDone) :: h)
| right_take c ls m n h :
    m <> MSkip ->
    permitted inp c ls (amount m n) ->
    right inp (c + amount m n) (map (fun l => l - amount m n) ls) h ->
    right inp c ls ((UTake m n, EBytes (sub inp c (amount m n))) :: h)
| right_fail c ls ls' m n h :
    ~ permitted inp c ls (amount m n) ->
    Forall2 N.le ls' ls ->
    right inp c ls' h ->
    right inp c ls ((UTake m n, EFail) :: h)
| right_peek c ls h o :
    (forall b, o = Some b <-> permitted inp c ls 1 /\ sub inp c 1 = [b]) ->
    right inp c ls h ->
    right inp c ls ((UPeek, EPeek o) :: h)
| right_eof c ls h b :
    (b = true <-> ~ permitted inp c ls 1) ->
    right inp c ls h ->
    right inp c ls ((UEof, EEof b) :: h)
| right_limit c ls n h :
    right inp c (n :: ls) h ->
    right inp c ls ((ULimit n, EDone) :: h)
| right_drop c ls h :
    right inp c (tl ls) h ->
    right inp c ls ((UDrop, EDone) :: h).

(** Numbers of bytes are [usize]. *)
Definition op_ok (p : plat) (u : rop) : Prop :=
  match u with UTake _ n | ULimit n => n < 2 ^ usize_bits p | _ => True end.

(** [r] is a reader over the input [inp], which lies in memory. *)
Definition reads (p : plat) (mem : N -> N) (r : reader) (inp : bytes) : Prop :=
  match r with
  | RSlice s => s = inp
  | RPtr start end_ =>
      end_ = start + lenN inp /\ end_ < 2 ^ usize_bits p /\ load mem start (lenN inp) = inp
  | RLimit _ _ => False
  end.

(** The number of bytes a history consumed. *)
Fixpoint consumed (h : list (rop * event)) : N :=
  match h with
  | (UTake m n, EDone) :: h' | (UTake m n, EBytes _) :: h' => amount m n + consumed h'
  | _ :: h' => consumed h'
  | [] => 0
  end.

(** The bytes a history delivered, with [None] for the ones it skipped. *)
Fixpoint delivered (h : list (rop * event)) : list (option N) :=
  match h with
  | (UTake m n, EDone) :: h' => repeat None (N.to_nat (amount m n)) ++ delivered h'
  | (UTake m n, EBytes bs) :: h' => map Some bs ++ delivered h'
  | _ :: h' => delivered h'
  | [] => []
  end.

(** [d] agrees with the input wherever it delivers a byte. *)
Definition matches (d : list (option N)) (inp : bytes) : Prop :=
  Forall2 (fun o b => o = None \/ o = Some b) d inp.

(** The program never leaves the scope in which it starts. *)
Fixpoint inside (depth : nat) (us : list rop) : bool :=
  match us with
  | [] => true
  | ULimit _ :: us' => inside (S depth) us'
  | UDrop :: us' => match depth with O => false | S d => inside d us' end
  | _ :: us' => inside depth us'
  end.

(** ** Writers *)

Definition wdata (u : wop) : bytes :=
  match u with UWrite bs | UExtend bs => bs | UByte b => [b] end.

(** The concatenation of the writes that succeeded. *)
Fixpoint written (h : list (wop * bool)) : bytes :=
  match h with
  | [] => []
  | (u, ok) :: h' => (if ok then wdata u else []) ++ written h'
  end.

(** A write into a capacity of [cap] of which [used] are used succeeds exactly when it fits. *)
Fixpoint fits_all (cap used : N) (h : list (wop * bool)) : Prop :=
  match h with
  | [] => True
  | (u, ok) :: h' =>
      (ok = true <-> used + lenN (wdata u) <= cap) /\
      fits_all cap (if ok then used + lenN (wdata u) else used) h'
  end.
