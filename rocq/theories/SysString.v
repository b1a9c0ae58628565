(** [String<System>], crates/musli-core/src/alloc/string.rs, over the vectors of [System.v]. *)
From Verif Require Import Base Utf8 System.
Local Open Scope N_scope.

(** [u8] *)
Definition u8t : ety := mke 1 1 true.

(** The bytes of a [&str], given as its characters. *)
Definition str_bytes (cs : list N) : bytes := flat_map utf8_enc cs.

(** What a vector of bytes is used as: the [vec] of a [String], string.rs:78-84, or a [Vec<u8>] of its own. *)
Inductive kind := KString | KBytes.
Definition kind_eqb (a b : kind) : bool := match a, b with KString, KString | KBytes, KBytes => true | _, _ => false end.

(** The vectors, and what each is used as. *)
Record tworld := mktw { t_world : sworld; t_kinds : list kind }.

Inductive strop :=
| SNew
| SWithCapacity (n : N)
| SFromStd (s : list N) (cap : N)
| SPushChar (i : nat) (c : N)
| SPushStr (i : nat) (s : list N)
| SAsStr (i : nat)
| SIntoBytes (i : nat)
| SFromUtf8 (i : nat)
| SIntoStd (i : nat)
| SDrop (i : nat)
| SCollect (pieces : list (list N))
| SNewBytes
| SExtendBytes (i : nat) (xs : bytes).

Inductive strreply := TDone | TFailed | TText (s : bytes) | TNotUtf8 | TStd (s : bytes) (cap : N).
Definition strreply_of (r : sreply) : strreply := match r with RFailed => TFailed | _ => TDone end.

(** The handle is alive and used like that: what Rust checks. *)
Definition handle (w : tworld) (i : nat) (k : kind) : option svec :=
  match nth_error (t_kinds w) i with
  | Some k' => if kind_eqb k k' then vec_at (t_world w) i else None
  | None => None
  end.

(** [str::from_utf8_unchecked] is undefined behaviour on other bytes. *)
Definition unchecked (xs : bytes) : sout bytes := if utf8_valid xs then SDone xs else SUndef.

(** push_str, string.rs:404-406; write_str, string.rs:492-494: the error is [fmt::Error] there *)
Definition string_push_str (env : nat -> bool) (dbg : bool) (w : sworld) (i : nat) (s : list N) : sout (sreply * sworld) :=
  sstep env dbg w (PExtendFromSlice i (str_bytes s)).

(** [write!(string, "{value}")] in collect_string, string.rs:26-28, for a [Display] implementation that writes these
    pieces and returns the first error. *)
Fixpoint write_pieces (env : nat -> bool) (dbg : bool) (w : sworld) (i : nat) (ps : list (list N)) : sout (sreply * sworld) :=
  match ps with
  | [] => SDone (RDone, w)
  | s :: r =>
      let? (a, w) := string_push_str env dbg w i s in
      match a with RFailed => SDone (RFailed, w) | _ => write_pieces env dbg w i r end
  end.

(** What is [SPanic] here are programs that Rust does not accept: of handles that are gone, and strings that are none. *)
Definition tstep (env : nat -> bool) (dbg : bool) (w : tworld) (o : strop) : sout (strreply * tworld) :=
  let sw := t_world w in
  let ks := t_kinds w in
  match o with
  (* new_in, string.rs:125-129 *)
  | SNew => let? (r, sw) := sstep env dbg sw (PNew u8t) in SDone (strreply_of r, mktw sw (ks ++ [KString]))
  (* with_capacity_in, string.rs:174-178 *)
  | SWithCapacity n =>
      let? (r, sw) := sstep env dbg sw (PWithCapacity u8t n) in SDone (strreply_of r, mktw sw (ks ++ [KString]))
  (* From<std String>, string.rs:639-646 *)
  | SFromStd s cap =>
      if negb (forallb char_valid s) then SPanic
      else let? (r, sw) := sstep env dbg sw (PFromStd u8t (str_bytes s) cap) in
           SDone (strreply_of r, mktw sw (ks ++ [KString]))
  (* push, string.rs:380-383 *)
  | SPushChar i c =>
      match handle w i KString with
      | None => SPanic
      | Some _ =>
          if negb (char_valid c) then SPanic
          else let? (r, sw) := sstep env dbg sw (PExtendFromSlice i (utf8_enc c)) in SDone (strreply_of r, mktw sw ks)
      end
  | SPushStr i s =>
      match handle w i KString with
      | None => SPanic
      | Some _ =>
          if negb (forallb char_valid s) then SPanic
          else let? (r, sw) := string_push_str env dbg sw i s in SDone (strreply_of r, mktw sw ks)
      end
  (* as_str and deref, string.rs:353-356, 504-506 *)
  | SAsStr i =>
      match handle w i KString with
      | None => SPanic
      | Some v => let? xs := svec_items (w_heap sw) v in let? s := unchecked xs in SDone (TText s, w)
      end
  (* into_bytes, string.rs:333-335 *)
  | SIntoBytes i =>
      match handle w i KString with
      | None => SPanic
      | Some _ => SDone (TDone, mktw sw (set_at ks i KBytes))
      end
  (* from_utf8, string.rs:263-271. The error holds the vector, into_bytes (string.rs:739-741) gives it back; where the
     bytes are invalid is not modelled. *)
  | SFromUtf8 i =>
      match handle w i KBytes with
      | None => SPanic
      | Some v =>
          let? xs := svec_items (w_heap sw) v in
          if utf8_valid xs then SDone (TDone, mktw sw (set_at ks i KString)) else SDone (TNotUtf8, w)
      end
  (* into_std, string.rs:182-190 *)
  | SIntoStd i =>
      match handle w i KString with
      | None => SPanic
      | Some _ =>
          let? (r, sw) := sstep env dbg sw (PIntoStd i) in
          match r with
          | RStd xs cap => let? s := unchecked xs in SDone (TStd s cap, mktw sw ks)
          | _ => SPanic
          end
      end
  | SDrop i =>
      match nth_error ks i with
      | None => SPanic
      | Some _ => let? (r, sw) := sstep env dbg sw (PDrop i) in SDone (strreply_of r, mktw sw ks)
      end
  (* collect_string, string.rs:20-32: the string is dropped when an error is returned *)
  | SCollect ps =>
      if negb (forallb (forallb char_valid) ps) then SPanic
      else
        let i := length (w_vecs sw) in
        let? (_, sw) := sstep env dbg sw (PNew u8t) in
        let? (r, sw) := write_pieces env dbg sw i ps in
        match r with
        | RFailed => let? (_, sw) := sstep env dbg sw (PDrop i) in SDone (TFailed, mktw sw (ks ++ [KString]))
        | _ => SDone (TDone, mktw sw (ks ++ [KString]))
        end
  (* vec.rs *)
  | SNewBytes => let? (r, sw) := sstep env dbg sw (PNew u8t) in SDone (strreply_of r, mktw sw (ks ++ [KBytes]))
  | SExtendBytes i xs =>
      match handle w i KBytes with
      | None => SPanic
      | Some _ => let? (r, sw) := sstep env dbg sw (PExtendFromSlice i xs) in SDone (strreply_of r, mktw sw ks)
      end
  end.

Fixpoint trun (env : nat -> bool) (dbg : bool) (w : tworld) (ops : list strop) : sout (list strreply * tworld) :=
  match ops with
  | [] => SDone ([], w)
  | o :: r =>
      let? (a, w) := tstep env dbg w o in
      let? (l, w) := trun env dbg w r in
      SDone (a :: l, w)
  end.

Definition tworld_empty : tworld := mktw sworld_empty [].

(** The comparison of slices of bytes: [Ord for str], which [Ord for String] calls, string.rs:564-568 *)
Fixpoint lex (a b : list N) : comparison :=
  match a, b with
  | [], [] => Eq
  | [], _ => Lt
  | _, [] => Gt
  | x :: a, y :: b => match x ?= y with Eq => lex a b | c => c end
  end.
Definition string_cmp (a b : bytes) : comparison := lex a b.
