(** Model of musli-zerocopy's prefix tries: crates/musli-zerocopy/src/trie,
    with the stacks of crates/musli-zerocopy/src/stack.

    Paths are relative to crates/musli-zerocopy/src. *)
From Verif Require Import Base Options Int Zc ZcBuf Swiss.
Local Open Scope N_scope.

(** A reference to a string of bytes: offset and length. *)
Definition sref : Type := N * N.

(** [<[u8]>::cmp] *)
Fixpoint cmp_bytes (a b : bytes) : comparison :=
  match a, b with
  | [], [] => Eq
  | [], _ :: _ => Lt
  | _ :: _, [] => Gt
  | x :: a, y :: b => match x ?= y with Eq => cmp_bytes a b | c => c end
  end.

(** [prefix], trie/mod.rs:1130-1132 *)
Fixpoint common (a b : bytes) : N :=
  match a, b with
  | x :: a, y :: b => if x =? y then 1 + common a b else 0
  | _, _ => 0
  end.

(** Loading a [Ref<[u8]>]: [load_slice] of [ZcBuf.v], where alignment and
    validation are trivial. *)
Definition str_load (bs : bytes) (r : sref) : zres bytes :=
  if lenN bs <? fst r then ZErr else
  if lenN bs - fst r <? snd r then ZErr else ZOk (slice_at bs (fst r) (snd r)).

(** ** Building *)

(** [Links] and, in the list of its children, [Node]: trie/factory.rs:266-269,
    308-311 *)
Inductive tree (V : Type) := Tree (vals : list V) (ch : list (sref * tree V)).
Arguments Tree {V} vals ch.

(** [Vec::insert] *)
Definition ins {A} (l : list A) (i : N) (x : A) : list A := firstn (N.to_nat i) l ++ x :: skipn (N.to_nat i) l.

(** [Builder::insert], trie/factory.rs:144-223, at [this], with
    [try_binary_search_by], 337-374, which is the same loop as
    [binary_search_by]. [bs] is the buffer; when it grows between insertions the
    bytes that are there stay, so one buffer stands for all of them. [split_at]
    does not panic: the split points are within the strings; that a [Ref] cannot
    represent offsets over its maximum is not modelled here. *)
Definition search_children {V} (bs : bytes) (ch : list (sref * tree V)) (cur : bytes) : option (zres bsres) :=
  binary_search_by (fun i =>
    match nthN ch i with
    | Some c => let+ x := str_load bs (fst c) in ZOk (cmp_bytes x cur)
    | None => ZUb
    end) (lenN ch).
Fixpoint t_insert {V} (fuel : nat) (bs : bytes) (t : tree V) (s : sref) (cur : bytes) (v : V) : option (zres (tree V)) :=
  match fuel with
  | O => None
  | S fuel =>
      match t with
      | Tree vals ch =>
          match search_children bs ch cur with
          | None => None
          | Some ZErr => Some ZErr
          | Some ZPanic => Some ZPanic
          | Some ZUb => Some ZUb
          | Some (ZOk (Found n)) =>
              match nthN ch n with
              | None => Some ZPanic
              | Some (r, Tree vs cs) => Some (ZOk (Tree vals (upd ch n (r, Tree (vs ++ [v]) cs))))
              end
          | Some (ZOk (Missing n)) =>
              if n =? 0 then Some (ZOk (Tree vals (ins ch 0 (s, Tree [v] [])))) else
              match nthN ch (n - 1) with
              | None => Some ZPanic
              | Some (r, sub) =>
                  match str_load bs r with
                  | ZErr => Some ZErr
                  | ZPanic => Some ZPanic
                  | ZUb => Some ZUb
                  | ZOk x =>
                      let p := common x cur in
                      if p =? 0 then Some (ZOk (Tree vals (ins ch n (s, Tree [v] [])))) else
                      let child :=
                        if p =? snd r then (r, sub)
                        else ((fst r, p), Tree [] [((fst r + p, snd r - p), sub)]) in
                      match t_insert fuel bs (snd child) (fst s + p, snd s - p) (skipn (N.to_nat p) cur) v with
                      | Some (ZOk sub) => Some (ZOk (Tree vals (upd ch (n - 1) (fst child, sub))))
                      | r => r
                      end
                  end
              end
          end
      end
  end.
Definition trie_insert {V} (bs : bytes) (t : tree V) (s : sref) (v : V) : option (zres (tree V)) :=
  match str_load bs s with
  | ZOk cur => t_insert (S (length cur)) bs t s cur v
  | ZErr => Some ZErr
  | ZPanic => Some ZPanic
  | ZUb => Some ZUb
  end.

(** [Builder::new] and a history of insertions; [store], trie/factory.rs:50-69 *)
Fixpoint insert_all {V} (bs : bytes) (t : tree V) (es : list (sref * V)) : option (zres (tree V)) :=
  match es with
  | [] => Some (ZOk t)
  | (s, v) :: es =>
      match trie_insert bs t s v with
      | Some (ZOk t) => insert_all bs t es
      | r => r
      end
  end.
Definition build_tree {V} (bs : bytes) (es : list (sref * V)) : option (zres (tree V)) := insert_all bs (Tree [] []) es.

(** ** The stored trie *)

(** [LinksRef], trie/mod.rs:1086-1093; the slice of values is kept as it loads *)
Record links V := { lvals : list V; lch : sref }.
Arguments lvals {V}. Arguments lch {V}.
(** [NodeRef], trie/mod.rs:1120-1127 *)
Record noderef V := { nstr : sref; nlinks : links V }.
Arguments nstr {V}. Arguments nlinks {V}.

(** The width of [usize], the largest offset a reference holds, and the size of a
    [NodeRef] *)
Record tenv := { eub : N; emx : N; ensz : N }.

(** What loading from a buffer gives: strings, and the node at an offset *)
Record tbuf V := { tstr : sref -> zres bytes; tnode : N -> zres (noderef V) }.
Arguments tstr {V}. Arguments tnode {V}.

(** [into_ref], trie/factory.rs:287-304, 322-333: [next] is where the next slice
    of nodes goes; storing a slice whose reference does not fit panics
    ([Ref::with_metadata]). Space for values, and padding, is left out: it only
    moves the nodes. *)
Fixpoint place_nodes {V} (sz off : N) (ns : list (noderef V)) : list (N * noderef V) :=
  match ns with
  | [] => []
  | n :: ns => (off, n) :: place_nodes sz (off + sz) ns
  end.
Fixpoint into_ref {V} (E : tenv) (next : N) (mem : list (N * noderef V)) (t : tree V)
  : zres (links V * (N * list (N * noderef V))) :=
  match t with
  | Tree vals ch =>
      let+ (nodes, (next, mem)) :=
        (fix go (ch : list (sref * tree V)) (next : N) (mem : list (N * noderef V))
           : zres (list (noderef V) * (N * list (N * noderef V))) :=
           match ch with
           | [] => ZOk ([], (next, mem))
           | (r, sub) :: ch =>
               if emx E <? fst r then ZErr else
               if emx E <? snd r then ZErr else
               let+ (l, (next, mem)) := into_ref E next mem sub in
               let+ (ns, (next, mem)) := go ch next mem in
               ZOk ({| nstr := r; nlinks := l |} :: ns, (next, mem))
           end) ch next mem in
      if emx E <? next then ZPanic else
      if emx E <? lenN nodes then ZPanic else
      ZOk ({| lvals := vals; lch := (next, lenN nodes) |}, (next + ensz E * lenN nodes, mem ++ place_nodes (ensz E) next nodes))
  end.
Definition mem_buf {V} (bs : bytes) (mem : list (N * noderef V)) : tbuf V :=
  {| tstr := str_load bs;
     tnode := fun off => match List.find (fun e => fst e =? off) mem with Some (_, n) => ZOk n | None => ZErr end |}.

(** ** Looking up *)

(** [Ref::<[T]>::get_unchecked], pointer/ref.rs:374-377, with [Ref::new] *)
Definition child_off (E : tenv) (ch : sref) (i : N) : zres N :=
  let+ d := umul (eub E) (ensz E) i in
  let+ off := uadd (eub E) (fst ch) d in
  if emx E <? off then ZPanic else ZOk off.
Definition load_child {V} (E : tenv) (B : tbuf V) (ch : sref) (i : N) : zres (noderef V) :=
  let+ off := child_off E ch i in tnode B off.
Definition search_nodes {V} (E : tenv) (B : tbuf V) (ch : sref) (s : bytes) : option (zres bsres) :=
  binary_search_by (fun i =>
    let+ c := load_child E B ch i in
    let+ x := tstr B (nstr c) in
    ZOk (cmp_bytes x s)) (snd ch).

(** [TrieRef::get], trie/mod.rs:230-266. [None]: not decided with the fuel; each
    round takes at least one byte off the string. *)
Fixpoint get_loop {V} (fuel : nat) (E : tenv) (B : tbuf V) (this : links V) (s : bytes) : option (zres (option (list V))) :=
  match fuel with
  | O => None
  | S fuel =>
      match search_nodes E B (lch this) s with
      | None => None
      | Some ZErr => Some ZErr
      | Some ZPanic => Some ZPanic
      | Some ZUb => Some ZUb
      | Some (ZOk (Found n)) => Some (let+ c := load_child E B (lch this) n in ZOk (Some (lvals (nlinks c))))
      | Some (ZOk (Missing n)) =>
          if n =? 0 then Some (ZOk None) else
          match (let+ c := load_child E B (lch this) (n - 1) in let+ x := tstr B (nstr c) in ZOk (c, x)) with
          | ZOk (c, x) =>
              let p := common x s in
              if p =? 0 then Some (ZOk None) else get_loop fuel E B (nlinks c) (skipn (N.to_nat p) s)
          | ZErr => Some ZErr
          | ZPanic => Some ZPanic
          | ZUb => Some ZUb
          end
      end
  end.
Definition trie_get {V} (E : tenv) (B : tbuf V) (t : links V) (s : bytes) : option (zres (option (list V))) :=
  get_loop (S (length s)) E B t s.

(** ** Walking *)

(** [prefix_string], trie/walk.rs:175-200 *)
Definition prefix_string (E : tenv) (r : sref) (plen : N) : zres sref :=
  if fst r <? plen then ZErr else
  if 2 ^ eub E <=? fst r + snd r then ZErr else
  ZOk (fst r - plen, fst r + snd r - (fst r - plen)).

(** The ['node] loop, trie/walk.rs:60-110: the node for the string, if any, and
    the length of the path to it *)
Fixpoint find_node {V} (fuel : nat) (E : tenv) (B : tbuf V) (this : links V) (s : bytes) (len : N)
  : option (zres (option (noderef V * N))) :=
  match fuel with
  | O => None
  | S fuel =>
      match search_nodes E B (lch this) s with
      | None => None
      | Some ZErr => Some ZErr
      | Some ZPanic => Some ZPanic
      | Some ZUb => Some ZUb
      | Some (ZOk (Found n)) => Some (let+ c := load_child E B (lch this) n in ZOk (Some (c, len)))
      | Some (ZOk (Missing n)) =>
          (fix try (l : list N) : option (zres (option (noderef V * N))) :=
             match l with
             | [] => Some (ZOk None)
             | i :: l =>
                 match (let+ c := load_child E B (lch this) i in let+ x := tstr B (nstr c) in ZOk (c, x)) with
                 | ZErr => Some ZErr
                 | ZPanic => Some ZPanic
                 | ZUb => Some ZUb
                 | ZOk (c, x) =>
                     let p := common x s in
                     if p =? 0 then try l else
                     if p =? lenN s then Some (ZOk (Some (c, len))) else
                     find_node fuel E B (nlinks c) (skipn (N.to_nat p) s) (len + p)
                 end
             end) ((if n =? 0 then [] else [n - 1]) ++ (if n <? snd (lch this) then [n] else []))
      end
  end.

(** [WalkState], trie/walk.rs:202-213 *)
Inductive wstate V :=
| WFind (l : links V) (prefix : bytes)
| WValues (prefix : bytes) (vs : list V)
| WStack.
Arguments WFind {V}. Arguments WValues {V}. Arguments WStack {V}.

(** [Walk]: its state and stack, the top first; an entry is the slice of nodes,
    the index of the next, and the path. [try_push]: stack/mod.rs:29-32 ([Vec],
    [None]), stack/array_stack.rs:28-39. *)
Definition frame : Type := sref * N * bytes.
Definition try_push (cap : option N) (st : list frame) (f : frame) : option (list frame) :=
  match cap with
  | None => Some (f :: st)
  | Some n => if lenN st =? n then None else Some (f :: st)
  end.

(** One round of the loops of [poll], trie/walk.rs:40-167 *)
Inductive wout V := WGo | WYield (k : bytes) (v : V) | WDone | WFail (e : zres (bytes * V)).
Arguments WGo {V}. Arguments WYield {V}. Arguments WDone {V}. Arguments WFail {V}.
Definition walk_step {V} (cap : option N) (E : tenv) (B : tbuf V) (w : wstate V * list frame)
  : option (wout V * (wstate V * list frame)) :=
  let '(st, stack) := w in
  let fail e := Some (WFail e, w) in
  match st with
  | WFind this [] =>
      match try_push cap stack (lch this, 0, []) with
      | None => fail ZErr
      | Some stack => Some (WGo, (WValues [] (lvals this), stack))
      end
  | WFind this s =>
      match find_node (S (length s)) E B this s 0 with
      | None => None
      | Some ZErr => fail ZErr
      | Some ZPanic => fail ZPanic
      | Some ZUb => fail ZUb
      | Some (ZOk None) => Some (WGo, (WStack, stack))
      | Some (ZOk (Some (node, len))) =>
          match (let+ r := prefix_string E (nstr node) len in tstr B r) with
          | ZErr => fail ZErr
          | ZPanic => fail ZPanic
          | ZUb => fail ZUb
          | ZOk prefix =>
              match try_push cap stack (lch (nlinks node), 0, prefix) with
              | None => fail ZErr
              | Some stack => Some (WGo, (WValues prefix (lvals (nlinks node)), stack))
              end
          end
      end
  | WValues prefix [] => Some (WGo, (WStack, stack))
  | WValues prefix (v :: vs) => Some (WYield prefix v, (WValues prefix vs, stack))
  | WStack =>
      match stack with
      | [] => Some (WDone, (WStack, []))
      | (ch, index, prefix) :: stack =>
          if snd ch <=? index then Some (WGo, (WStack, stack)) else
          match (let+ node := load_child E B ch index in
                 let+ r := prefix_string E (nstr node) (lenN prefix) in
                 let+ prefix := tstr B r in
                 ZOk (node, prefix)) with
          | ZErr => fail ZErr
          | ZPanic => fail ZPanic
          | ZUb => fail ZUb
          | ZOk (node, new_prefix) =>
              match try_push cap stack (ch, index + 1, prefix) with
              | None => fail ZErr
              | Some stack =>
                  match try_push cap stack (lch (nlinks node), 0, new_prefix) with
                  | None => fail ZErr
                  | Some stack => Some (WGo, (WValues new_prefix (lvals (nlinks node)), stack))
                  end
              end
          end
      end
  end.

(** The items up to and including the first error, and whether the iteration
    ended within [fuel] rounds. *)
Fixpoint walk_items {V} (fuel : nat) (cap : option N) (E : tenv) (B : tbuf V) (w : wstate V * list frame)
  : list (zres (bytes * V)) * bool :=
  match fuel with
  | O => ([], false)
  | S fuel =>
      match walk_step cap E B w with
      | None => ([], false)
      | Some (WGo, w) => walk_items fuel cap E B w
      | Some (WDone, _) => ([], true)
      | Some (WFail e, _) => ([e], true)
      | Some (WYield k v, w) => let '(l, d) := walk_items fuel cap E B w in (ZOk (k, v) :: l, d)
      end
  end.

(** [iter_in], trie/mod.rs:675-682 and [iter_in_fixed], 763-774; [iter] and
    [iter_fixed] are those of the empty prefix, [values] their second parts. *)
Definition iter_in {V} (fuel : nat) (cap : option N) (E : tenv) (B : tbuf V) (t : links V) (prefix : bytes) :=
  walk_items fuel cap E B (WFind t prefix, []).

(** [store], trie/factory.rs:50-69, with [build], 253-262 *)
Definition trie_store {V} (E : tenv) (bs : bytes) (es : list (sref * V)) : option (zres (links V * tbuf V)) :=
  match build_tree bs es with
  | None => None
  | Some r => Some (let+ t := r in let+ (l, (_, mem)) := into_ref E (lenN bs) [] t in ZOk (l, mem_buf bs mem))
  end.
