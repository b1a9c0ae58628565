(** What a reader of a struct makes of any sequence of entries: of hand-written encoders
    ([encode_map_fn], [encode_struct_fn], [encode_slice] of pairs, a [HashMap]) that write its fields in any
    order, some of them repeatedly, and others. *)
From Verif Require Import Base Options Int Utf8 Types Storage StorageSpec Fmt FmtSpec.
Local Open Scope N_scope.

(** An entry: a name, and a value with its type. *)
Record entry := mkent { e_name : val; e_type : ty; e_val : val }.

(** The message with the given entries: what announces their number, and then the name and the value
    of each in turn. *)
Definition entries_encode (F : fmt) (p : plat) (o : N) (kt : ty) (es : list entry) : res bytes :=
  let* h := f_map_enc F (lenN es) in
  let* b := concat_res (fun e => let* a := genc F p o kt (e_name e) in
                                 let* c := genc F p o (e_type e) (e_val e) in Ok (a ++ c)) es in
  Ok (h ++ b).

(** The names and values have the types they are written with, which every message can hold
    ([C14], [C15]). *)
Definition entries_ok (p : plat) (o : N) (okleaf : ty -> bool) (kt : ty) (es : list entry) : Prop :=
  (wf p kt /\ packs_ok p o kt /\ leaves okleaf kt = true) /\
  forall e, In e es -> has_type p kt (e_name e) = true /\
    wf p (e_type e) /\ packs_ok p o (e_type e) /\ leaves okleaf (e_type e) = true /\
    has_type p (e_type e) (e_val e) = true.

(** [e] is the last entry under its name. *)
Definition last_entry (es : list entry) (e : entry) : Prop :=
  exists pre post, es = pre ++ e :: post /\ forall e', In e' post -> e_name e' <> e_name e.

(** No entry is for the field. *)
Definition unnamed (es : list entry) (fr : finfo * ty) : Prop :=
  forall e, In e es -> e_name e <> fname (fst fr).

(** The field has the value [r]: that of the last entry for it, or if there is none its default. *)
Definition says (es : list entry) (fr : finfo * ty) (r : val) : Prop :=
  (exists e, last_entry es e /\ e_name e = fname (fst fr) /\ upg (e_type e) (snd fr) (e_val e) r) \/
  (unnamed es fr /\ fdefault (fst fr) = Some r).

(** Every entry for a field is something that the field can be read from, also if a later one follows. *)
Definition readable (es : list entry) (fs : list (finfo * ty)) : Prop :=
  forall e fr, In e es -> In fr fs -> e_name e = fname (fst fr) ->
    exists r, upg (e_type e) (snd fr) (e_val e) r.

(** The entries of a struct: one for each field that is not left out. *)
Fixpoint struct_entries (fs : list (finfo * ty)) (vs : list val) : list entry :=
  match fs, vs with
  | (f, t) :: fs', v :: vs' =>
      if fskip f v then struct_entries fs' vs' else mkent (fname f) t v :: struct_entries fs' vs'
  | _, _ => []
  end.
