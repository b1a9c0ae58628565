(** Model of adjacently tagged enums, untagged enums and fallback variants (see [Tagged.v]) in the JSON format. For
    internally tagged ones see [JsonAny.v]. *)
From Verif Require Import Base Options Int Utf8 Types Storage Json Value Any Tagged.
Local Open Scope N_scope.

(** ** Adjacently tagged *)

(** encode_adjacent_variant, musli-macros/src/en.rs:699-764, with the map encoder of json/en/object_encoder.rs:11-100 *)
Definition json_adj_enc (p : plat) (e : tenum) (v : val) : res bytes :=
  match v with
  | VVar i x =>
      match nth_error (e_vars e) i with
      | Some (name, t) =>
          let* a := jkenc p (e_key e) (e_tag e) in
          let* b := jenc p (e_name e) name in
          let* c := jkenc p (e_key e) (e_content e) in
          let* d := jenc p t x in
          Ok (in_braces [pair a b; pair c d])
      | None => Err
      end
  | _ => Err
  end.

(** The loop of decode_adjacent, musli-macros/src/de.rs:659-878, over json/de/object_decoder.rs:143-152 and
    object_pair_decoder.rs. It ends at the content. [name]: the name of the variant, if the tag was seen. *)
Fixpoint jadj_loop (fuel : nat) (p : plat) (oc : bool) (e : tenum) (first : bool) (name : option val) (bs : bytes) :
    res (val * bytes) :=
  match fuel with
  | O => Panic
  | Datatypes.S f =>
      let* (more, r) := next_key first bs in
      if more : bool then
        let* (k, r0) := jkdec p oc (e_key e) r in
        if val_eqb k (e_tag e) then
          let* r1 := expect KColon r0 in
          let* (n, r2) := jdec p oc (e_name e) r1 in
          jadj_loop f p oc e false (Some n) r2
        else if val_eqb k (e_content e) then
          match name with
          | None => Err
          | Some n =>
              let* r1 := expect KColon r0 in
              match find_name n (map fst (e_vars e)) with
              | Some i =>
                  match nth_error (e_vars e) i with
                  | Some (_, t) => let* (x, r2) := jdec p oc t r1 in Ok (VVar i x, r2)
                  | None => Err
                  end
              | None => Err
              end
          end
        else
          let* r1 := expect KColon r0 in
          let* r2 := skip_value r1 in
          jadj_loop f p oc e false name r2
      else Err
  end.

(** [decode_map_hint], json/de/mod.rs:392-401: the entries after the content are skipped. *)
Definition json_adj_dec (p : plat) (oc : bool) (e : tenum) : dec val :=
  fun bs =>
    let* r := expect KOBrace bs in
    let* (v, r') := jadj_loop (Datatypes.S (length r)) p oc e true None r in
    let* r'' := skip_entries false r' in
    Ok (v, r'').

(** ** Untagged *)

(** What [Tagged.v] needs of JSON for untagged enums and for enums without fields. [try_clone], json/de/mod.rs:139-141,
    slice_parser.rs:37-42, copies the parser at its position. The others are not used. *)
Definition of_json (p : plat) (oc : bool) : medium := {|
  m_enc := jenc p;
  m_dec := jdec p oc;
  m_map_enc := fun _ => Err;
  m_map_dec := fun _ => Err;
  m_skip := fun bs => let* r := skip_value bs in Ok (tt, r)
|}.

(** Decoding from a [&mut &[u8]], whose parser has no [try_clone], json/parser/mut_slice_parser.rs:44-47: of the
    generated code, musli-macros/src/de.rs:325-339, only the last variant is left. *)
Fixpoint unt_from_mut (M : medium) (i : nat) (ts : list ty) : dec val :=
  fun bs =>
    match ts with
    | [] => Err
    | [t] => let* (x, r) := m_dec M t bs in Ok (VVar i x, r)
    | _ :: ts' => unt_from_mut M (S i) ts' bs
    end.
Definition unt_dec_mut (M : medium) (ts : list ty) : dec val := unt_from_mut M 0 ts.

(** A sequence of such enums: [Vec<T>], as in [Json.v] *)
Definition jseq_enc (e : val -> res bytes) (vs : list val) : res bytes :=
  let* l := map_res e vs in Ok (in_brackets l).
Definition jseq_dec (d : dec val) : dec (list val) :=
  dec_sequence (fun s bs => let* (v, r) := d bs in Ok (s ++ [v], r)) [].

(** ** Fallback variants *)

(** Default tagging with a fallback variant, musli-macros/src/de.rs:364-458, 915-930; json/de/variant_decoder.rs. *)
Definition json_fb_dec (p : plat) (oc : bool) (kt : ty) (vs : list (val * ty)) (fb : nat) : dec val :=
  fun bs =>
    let* r0 := expect KOBrace bs in
    let* (k, r1) := jkdec p oc kt r0 in
    let* r2 := expect KColon r1 in
    match find_name k (map fst vs) with
    | Some i =>
        match nth_error vs i with
        | Some (_, t) =>
            let* (v, r3) := jdec p oc t r2 in
            let* r4 := expect KCBrace r3 in
            Ok (VVar i v, r4)
        | None => Err
        end
    | None =>
        let* r3 := skip_value r2 in
        let* r4 := expect KCBrace r3 in
        Ok (VVar fb (VList []), r4)
    end.
