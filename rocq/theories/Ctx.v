(** Model of crates/musli/src/context: [DefaultContext] with tracing ([with_trace]) and with a captured
    error ([with_capture]): what it records while something is encoded or decoded and what it reports.

    Allocations can fail. Whether they do is given from outside: each operation comes with two
    booleans, whether a string can be formatted ([format_string]) and whether there is room for
    another element in the vector concerned ([Vec::push]). Messages and names are byte strings.
    Not modelled: user code that runs inside [Display] and uses the context. *)
From Verif Require Import Base Options Int NumText.
Local Open Scope N_scope.

(** [Step], context/trace.rs:698-710 *)
Inductive step :=
| AtStruct (name : bytes)
| AtEnum (name : bytes)
| AtVariant (name : bytes)
| AtNamed (name : bytes)
| AtUnnamed (i : N)
| AtIndex (i : N)
| AtKey (key : bytes).

(** [WithTraceImpl], context/trace.rs:148-159, and [Capture], context/capture.rs:132-135. [c_held] is the
    number of [Shared] guards alive: those of [Errors] and [Report] values
    (context/access.rs; the exclusive guard never outlives a method). *)
Record ctx := {
  c_mark : N;
  c_errors : list (N * N * bytes);   (* in the order of reporting *)
  c_path : list step;                (* outermost first *)
  c_cap : N;
  c_type : bool;                     (* with_type *)
  c_held : N;
  c_last : option bytes              (* the captured error *)
}.

(** context/trace.rs:167-184, context/capture.rs:140-144 *)
Definition fresh (with_type : bool) : ctx :=
  {| c_mark := 0; c_errors := []; c_path := []; c_cap := 0; c_type := with_type; c_held := 0; c_last := None |}.

Definition with_mark (m : N) (c : ctx) : ctx :=
  {| c_mark := m; c_errors := c_errors c; c_path := c_path c; c_cap := c_cap c; c_type := c_type c;
     c_held := c_held c; c_last := c_last c |}.
Definition with_errors (e : list (N * N * bytes)) (c : ctx) : ctx :=
  {| c_mark := c_mark c; c_errors := e; c_path := c_path c; c_cap := c_cap c; c_type := c_type c;
     c_held := c_held c; c_last := c_last c |}.
Definition with_path (q : list step) (c : ctx) : ctx :=
  {| c_mark := c_mark c; c_errors := c_errors c; c_path := q; c_cap := c_cap c; c_type := c_type c;
     c_held := c_held c; c_last := c_last c |}.
Definition with_cap (n : N) (c : ctx) : ctx :=
  {| c_mark := c_mark c; c_errors := c_errors c; c_path := c_path c; c_cap := n; c_type := c_type c;
     c_held := c_held c; c_last := c_last c |}.
Definition with_held (n : N) (c : ctx) : ctx :=
  {| c_mark := c_mark c; c_errors := c_errors c; c_path := c_path c; c_cap := c_cap c; c_type := c_type c;
     c_held := n; c_last := c_last c |}.
Definition with_last (l : option bytes) (c : ctx) : ctx :=
  {| c_mark := c_mark c; c_errors := c_errors c; c_path := c_path c; c_cap := c_cap c; c_type := c_type c;
     c_held := c_held c; c_last := l |}.

(** [Access::exclusive], context/access.rs:33-46: panics while a shared guard is alive. *)
Definition exclusive (c : ctx) (k : res ctx) : res ctx :=
  if c_held c =? 0 then k else Panic.

(** context/trace.rs:208-217 *)
Definition push_path (room : bool) (s : step) (c : ctx) : res ctx :=
  exclusive c (Ok (if room then with_path (c_path c ++ [s]) c else with_cap (c_cap c + 1) c)).

(** context/trace.rs:221-235 *)
Definition pop_path (c : ctx) : res ctx :=
  if 0 <? c_cap c then Ok (with_cap (c_cap c - 1) c)
  else exclusive c (Ok (with_path (removelast (c_path c)) c)).

(** context/trace.rs:251-258 *)
Definition push_error (room : bool) (from to : N) (msg : bytes) (c : ctx) : res ctx :=
  exclusive c (Ok (if room then with_errors (c_errors c ++ [(from, to, msg)]) c else c)).

(** The methods of [Context] and of [DefaultContext]. *)
Inductive op :=
| Enter (s : step)          (* enter_struct .. enter_sequence_index *)
| EnterKey (key : bytes)    (* enter_map_key *)
| Leave                     (* leave_field, leave_variant, leave_sequence_index, leave_map_key *)
| LeaveType                 (* leave_struct, leave_enum *)
| Advance (n : N)
| Restore (mark : N)
| Say (msg : bytes)         (* message, custom *)
| SayAt (mark : N) (msg : bytes) (* message_at, custom_at *)
| Clear
| Hold                      (* errors(), report(), and their clones *)
| Release                   (* dropping one of these *)
| Take.                     (* result() of a capturing context *)

(** [fmt] and [room]: whether formatting and pushing find memory. *)
Definition act (p : plat) (fmt room : bool) (o : op) (c : ctx) : res ctx :=
  match o with
  (* context/trace.rs:335-396: steps for types only with [include_type] *)
  | Enter (AtStruct _ as s) | Enter (AtEnum _ as s) => if c_type c then push_path room s c else Ok c
  | Enter s => push_path room s c
  (* context/trace.rs:404-411 *)
  | EnterKey k => if fmt then push_path room (AtKey k) c else Ok c
  | Leave => pop_path c
  (* context/trace.rs:363-367, 377-381 *)
  | LeaveType => if c_type c then pop_path c else Ok c
  (* context/trace.rs:280-292 *)
  | Advance n => Ok (with_mark ((c_mark c + n) mod 2 ^ usize_bits p) c)
  | Restore m => Ok (with_mark m c)
  (* context/trace.rs:295-332, context/default_context.rs:305-338, context/capture.rs:189-214 *)
  | Say m =>
      let* c' := if fmt then push_error room (c_mark c) (c_mark c) m c else Ok c in
      Ok (with_last (Some m) c')
  | SayAt k m =>
      let* c' := if fmt then push_error room k (c_mark c) m c else Ok c in
      Ok (with_last (Some m) c')
  (* context/trace.rs:268-277, context/default_context.rs:294-297: [cap] stays as it is *)
  | Clear =>
      let c := with_mark 0 c in
      let* c' := exclusive c (Ok (with_path [] (with_errors [] c))) in
      Ok (with_last None c')
  (* context/trace.rs:195-204, context/access.rs:17-30, 54-72 *)
  | Hold => Ok (with_held (c_held c + 1) c)
  | Release => Ok (with_held (c_held c - 1) c)
  (* context/capture.rs:161-170 *)
  | Take => Ok (with_last None c)
  end.

(** A history: operations, each with the answers of the allocator. *)
Definition history := list (op * (bool * bool)).

Fixpoint acts (p : plat) (h : history) (c : ctx) : res ctx :=
  match h with
  | [] => Ok c
  | (o, (f, r)) :: h' => let* c' := act p f r o c in acts p h' c'
  end.

(** ** What is shown *)

(** [FormatPath], context/trace.rs:730-816: state of the loop are the flags [has_type] and [has_field] and the level. *)
Definition equals : bytes := [32; 61; 32].           (* " = " *)
Definition opens : bytes := [32; 123; 32].           (* " { " *)
Definition closes : bytes := [32; 125].              (* " }" *)
Fixpoint show_steps (has_type has_field : bool) (level : nat) (l : list step) : bytes :=
  let typed (text : bytes) (ht : bool) (k : list step) :=
    (if has_field then equals else []) ++ text ++ show_steps ht false level k in
  let field (text : bytes) (k : list step) :=
    if has_type then opens ++ text ++ show_steps false true (S level) k
    else text ++ show_steps false true level k in
  match l with
  | [] => concat (repeat closes level)
  | AtStruct n :: k => typed n true k
  | AtEnum n :: k => typed (n ++ [58; 58]) has_type k
  | AtVariant n :: k => typed n true k
  | AtNamed n :: k => field (46 :: n) k
  | AtUnnamed i :: k => field (46 :: itoa i) k
  | AtIndex i :: k => field (91 :: itoa i ++ [93]) k
  | AtKey s :: k => field (91 :: s ++ [93]) k
  end.

(** " .. *one capped step*", " .. *3 capped steps*" *)
Definition show_cap (n : N) : bytes :=
  if n =? 0 then []
  else if n =? 1 then
    [32; 46; 46; 32; 42; 111; 110; 101; 32; 99; 97; 112; 112; 101; 100; 32; 115; 116; 101; 112; 42]
  else [32; 46; 46; 32; 42] ++ itoa n ++ [32; 99; 97; 112; 112; 101; 100; 32; 115; 116; 101; 112; 115; 42].

Definition show_path (l : list step) (cap : N) : bytes := show_steps false false 0 l ++ show_cap cap.

(** [Error], context/trace.rs:671-695; [Report], context/trace.rs:588-600: every error is shown with the
    path at the time of the call. *)
Definition show_error (path : bytes) (e : N * N * bytes) : bytes :=
  let '(from, to, msg) := e in
  path ++ [58; 32] ++ msg ++
  (if (from =? 0) && (to =? 0) then []
   else if from =? to then [32; 40; 97; 116; 32; 98; 121; 116; 101; 32] ++ itoa from ++ [41]
   else [32; 40; 97; 116; 32; 98; 121; 116; 101; 115; 32] ++ itoa from ++ [45] ++ itoa to ++ [41]).
Definition show_report (c : ctx) : bytes :=
  concat (map (fun e => show_error (show_path (c_path c) (c_cap c)) e ++ [10]) (c_errors c)).
