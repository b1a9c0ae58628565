(** Model of the tracing that [Decode] does through the context: the calls [enter_*] and [leave_*]
    in the implementations of crates/musli-core/src/impls and in the code generated by
    crates/musli-macros/src/de.rs, for the formats of [Fmt.v]. A traced decoder returns what the
    decoder of [Fmt.v] returns and the calls that it made, as a history of [Ctx.v] in which memory does not
    run out. When an error is returned with [?], no [leave_*] is called.

    Simplifications: members and variants are given names by a function [lbl] of the type and the
    position (the real names are those of the Rust members; unnamed ones are numbers). The steps for types ([enter_struct], [enter_enum]) are left
    out: they do nothing unless the context was made with [with_type]. Packed structs make no steps
    of their own (de.rs:1426-1515); those of types inside of them are not modelled. *)
From Verif Require Import Base Options Int Utf8 Types Storage Fmt Ctx.
Local Open Scope N_scope.

Definition traced (A : Type) : Type := res A * history.

Definition quiet {A} (r : res A) : traced A := (r, []).
Definition tbind {A B} (m : traced A) (f : A -> traced B) : traced B :=
  match fst m with
  | Ok a => (fst (f a), snd m ++ snd (f a))
  | Err => (Err, snd m)
  | Panic => (Panic, snd m)
  end.
Definition call (o : op) : history := [(o, (true, true))].
(** [cx.enter_..(..); let v = body?; cx.leave_..();] *)
Definition within {A} (s : step) (m : traced A) : traced A :=
  match fst m with
  | Ok a => (Ok a, call (Enter s) ++ snd m ++ call Leave)
  | r => (r, call (Enter s) ++ snd m)
  end.

Fixpoint titer {S} (n : nat) (f : S -> traced S) (s : S) : traced S :=
  match n with
  | O => quiet (Ok s)
  | S m => tbind (f s) (titer m f)
  end.

Fixpoint tlist (ds : list (bytes -> traced (val * bytes))) (bs : bytes) : traced (list val * bytes) :=
  match ds with
  | [] => quiet (Ok ([], bs))
  | d :: ds' =>
      tbind (d bs) (fun x => tbind (tlist ds' (snd x)) (fun y => quiet (Ok (fst x :: fst y, snd y))))
  end.

(** One entry of a struct: musli-macros/src/de.rs:1211-1230, 1355-1362. *)
Definition tfield (dk : bytes -> traced (val * bytes)) (names : list val)
    (ds : list (step * (bytes -> traced (val * bytes)))) (skip : dec unit) (s : slots * bytes) : traced (slots * bytes) :=
  tbind (dk (snd s)) (fun x =>
    match find_name (fst x) names with
    | Some i =>
        match nth_error ds i with
        | Some d => tbind (within (fst d) (snd d (snd x))) (fun y => quiet (Ok (set_slot i (fst y) (fst s), snd y)))
        | None => quiet Err
        end
    | None => tbind (quiet (skip (snd x))) (fun y => quiet (Ok (fst s, snd y)))
    end).

(** The members of a list with their positions. *)
Fixpoint numbered {A B} (f : nat -> A -> B) (i : nat) (l : list A) : list B :=
  match l with [] => [] | x :: r => f i x :: numbered f (S i) r end.

Fixpoint tdec (F : fmt) (p : plat) (o : N) (lbl : ty -> nat -> bytes) (t : ty) {struct t} : bytes -> traced (val * bytes) :=
  match t with
  | TOpt t' =>
      fun bs =>
        tbind (quiet (f_opt_dec F bs)) (fun x =>
        if fst x : bool then tbind (tdec F p o lbl t' (snd x)) (fun y => quiet (Ok (VSome (fst y), snd y)))
        else quiet (Ok (VNone, snd x)))
  | TBox t' => tdec F p o lbl t'
  (* default_decode_slice makes no steps, musli-core/src/de/utils.rs:5-32 *)
  | TVec t' =>
      fun bs =>
        tbind (quiet (f_seq_dec F bs)) (fun x =>
        tbind (titer (N.to_nat (fst x)) (fun s => tbind (tdec F p o lbl t' (snd s)) (fun y => quiet (Ok (fst y :: fst s, snd y)))) ([], snd x)) (fun z =>
        quiet (Ok (VList (rev (fst z)), snd z))))
  | TArray n t' =>
      fun bs =>
        tbind (quiet (f_seq_dec F bs)) (fun x =>
        tbind (titer (N.to_nat (N.min (fst x) (n + 1)))
                 (fun s => tbind (tdec F p o lbl t' (snd s)) (fun y => quiet (Ok (fst y :: fst s, snd y)))) ([], snd x)) (fun z =>
        if fst x =? n then quiet (Ok (VList (rev (fst z)), snd z)) else quiet Err))
  (* impls/alloc.rs:330-345 *)
  | TSet t' =>
      fun bs =>
        tbind (quiet (f_seq_dec F bs)) (fun x =>
        tbind (titer (N.to_nat (fst x))
                 (fun s => tbind (within (AtIndex (fst s)) (tdec F p o lbl t' (snd (snd s)))) (fun y =>
                           quiet (Ok (fst s + 1, (set_insert (fst y) (fst (snd s)), snd y))))) (0, ([], snd x))) (fun z =>
        quiet (Ok (VList (fst (snd z)), snd (snd z)))))
  | TTup ts =>
      let ds := map (tdec F p o lbl) ts in
      fun bs =>
        tbind (quiet (f_seq_dec F bs)) (fun x =>
        if fst x <? lenN ts then
          tbind (tlist (firstn (N.to_nat (fst x)) ds) (snd x)) (fun _ => quiet Err)
        else
          tbind (tlist ds (snd x)) (fun y =>
          tbind (quiet (f_skip_rest F (fst x - lenN ts) (snd y))) (fun z =>
          quiet (Ok (VList (fst y), snd z)))))
  (* impls/alloc.rs:556-569; steps are made only with #[musli(trace)], not modelled *)
  | TMap tk tv =>
      fun bs =>
        tbind (quiet (f_map_dec F bs)) (fun x =>
        tbind (titer (N.to_nat (fst x))
                 (fun s => tbind (tdec F p o lbl tk (snd s)) (fun k =>
                           tbind (tdec F p o lbl tv (snd k)) (fun v =>
                           quiet (Ok (map_insert (fst k) (fst v) (fst s), snd v))))) ([], snd x)) (fun z =>
        quiet (Ok (VMap (fst z), snd z))))
  (* musli-macros/src/de.rs:1137-1160, 1211-1230, 1355-1368 *)
  | TStruct kt fs =>
      let dk := match fs with
                | [] => fun bs => tbind (quiet (f_skip F bs)) (fun x => quiet (Ok (VUnit, snd x)))
                | _ => tdec F p o lbl kt
                end in
      let ds := numbered (fun i d => (AtNamed (lbl t i), d)) 0 (map (fun ft => tdec F p o lbl (snd ft)) fs) in
      let names := map (fun ft => fname (fst ft)) fs in
      fun bs =>
        tbind (quiet (f_map_dec F bs)) (fun x =>
        tbind (titer (N.to_nat (fst x)) (tfield dk names ds (f_skip F)) (map (fun _ => None) fs, snd x)) (fun z =>
        tbind (quiet (fill (map fst fs) (fst z))) (fun vs => quiet (Ok (VList vs, snd z)))))
  | TTag kt tags =>
      fun bs =>
        tbind (tdec F p o lbl kt bs) (fun x =>
        match find_name (fst x) tags with Some i => quiet (Ok (VVar i VUnit, snd x)) | None => quiet Err end)
  (* musli-macros/src/de.rs:387-419, 436-457; Result makes no steps, impls/mod.rs:733-757 *)
  | TEnum fast kt vs =>
      let ds := numbered (fun i (d : bytes -> traced (val * bytes)) =>
                            if fast then d else fun bs => within (AtVariant (lbl t i)) (d bs)) 0
                  (map (fun tv => tdec F p o lbl (snd tv)) vs) in
      fun bs =>
        tbind (quiet (f_var_dec F bs)) (fun x =>
        tbind (tdec F p o lbl kt (snd x)) (fun k =>
        match find_name (fst k) (map fst vs) with
        | Some i =>
            match nth_error ds i with
            | Some d => tbind (d (snd k)) (fun y => quiet (Ok (VVar i (fst y), snd y)))
            | None => quiet Err
            end
        | None => quiet Err
        end))
  | _ => fun bs => quiet (gdec F p o t bs)
  end.

(** An untagged enum whose variants have the decoders [ds], musli-macros/src/de.rs:273-362: the variants are tried one after
    the other on copies of the input, the last one on the input itself; [restore] sets the mark back, nothing sets the
    path back. *)
Fixpoint tuntagged (i : nat) (ds : list (bytes -> traced (val * bytes))) (bs : bytes) : traced (val * bytes) :=
  match ds with
  | [] => quiet Err
  | [d] => tbind (d bs) (fun x => quiet (Ok (VVar i (fst x), snd x)))
  | d :: ds' =>
      match d bs with
      | (Ok x, l) => (Ok (VVar i (fst x), bs), l)
      | (Err, l) => let m := tuntagged (S i) ds' bs in (fst m, l ++ snd m)
      | (Panic, l) => (Panic, l)
      end
  end.
