(** Where decoding fails, stated with the decoder [gdec] only. *)
From Verif Require Import Base Options Int Utf8 Types Storage Fmt Ctx.
Local Open Scope N_scope.

(** [child t bs u s bs']: decoding a [t] from [bs] comes, after everything before it was decoded, to decoding a [u] from
    [bs'], which is the part of the value that the steps [s] name (none, a field, an element of a
    set, or a variant). *)
Inductive child (F : fmt) (p : plat) (o : N) (lbl : ty -> nat -> bytes) : ty -> bytes -> ty -> list step -> bytes -> Prop :=
| in_option u bs bs' : f_opt_dec F bs = Ok (true, bs') -> child F p o lbl (TOpt u) bs u [] bs'
| in_box u bs : child F p o lbl (TBox u) bs u [] bs
| in_vec u bs n r k vs bs' :
    f_seq_dec F bs = Ok (n, r) -> k < n -> dec_count k (gdec F p o u) r = Ok (vs, bs') ->
    child F p o lbl (TVec u) bs u [] bs'
| in_array u bs n m r k vs bs' :
    f_seq_dec F bs = Ok (m, r) -> k < m -> k <= n -> dec_count k (gdec F p o u) r = Ok (vs, bs') ->
    child F p o lbl (TArray n u) bs u [] bs'
| in_set u bs n r k vs bs' :
    f_seq_dec F bs = Ok (n, r) -> k < n -> dec_count k (gdec F p o u) r = Ok (vs, bs') ->
    child F p o lbl (TSet u) bs u [AtIndex k] bs'
| in_tuple ts bs m r k u vs bs' :
    f_seq_dec F bs = Ok (m, r) -> (k < N.to_nat m)%nat -> nth_error ts k = Some u ->
    dec_list (map (gdec F p o) (firstn k ts)) r = Ok (vs, bs') ->
    child F p o lbl (TTup ts) bs u [] bs'
| in_key tk tv bs n r k kvs bs' :
    f_map_dec F bs = Ok (n, r) -> k < n ->
    iterN k (fun s => let* (k, r) := gdec F p o tk (snd s) in
                      let* (v, r') := gdec F p o tv r in
                      Ok (map_insert k v (fst s), r')) ([], r) = Ok (kvs, bs') ->
    child F p o lbl (TMap tk tv) bs tk [] bs'
| in_value tk tv bs n r k kvs r1 key bs' :
    f_map_dec F bs = Ok (n, r) -> k < n ->
    iterN k (fun s => let* (k, r) := gdec F p o tk (snd s) in
                      let* (v, r') := gdec F p o tv r in
                      Ok (map_insert k v (fst s), r')) ([], r) = Ok (kvs, r1) ->
    gdec F p o tk r1 = Ok (key, bs') ->
    child F p o lbl (TMap tk tv) bs tv [] bs'
| in_name kt fs bs n r k s bs' :
    fs <> [] -> f_map_dec F bs = Ok (n, r) -> k < n ->
    iterN k (dec_field (gdec F p o kt) (map (fun ft => fname (fst ft)) fs) (map (fun ft => gdec F p o (snd ft)) fs) (f_skip F))
      (map (fun _ => None) fs, r) = Ok (s, bs') ->
    child F p o lbl (TStruct kt fs) bs kt [] bs'
| in_field kt fs bs n r k s r1 key i f u bs' :
    fs <> [] -> f_map_dec F bs = Ok (n, r) -> k < n ->
    iterN k (dec_field (gdec F p o kt) (map (fun ft => fname (fst ft)) fs) (map (fun ft => gdec F p o (snd ft)) fs) (f_skip F))
      (map (fun _ => None) fs, r) = Ok (s, r1) ->
    gdec F p o kt r1 = Ok (key, bs') ->
    find_name key (map (fun ft => fname (fst ft)) fs) = Some i -> nth_error fs i = Some (f, u) ->
    child F p o lbl (TStruct kt fs) bs u [AtNamed (lbl (TStruct kt fs) i)] bs'
| in_unit_tag kt tags bs : child F p o lbl (TTag kt tags) bs kt [] bs
| in_tag fast kt vs bs bs' : f_var_dec F bs = Ok (tt, bs') -> child F p o lbl (TEnum fast kt vs) bs kt [] bs'
| in_variant fast kt vs bs r tag i k u bs' :
    f_var_dec F bs = Ok (tt, r) -> gdec F p o kt r = Ok (tag, bs') ->
    find_name tag (map fst vs) = Some i -> nth_error vs i = Some (k, u) ->
    child F p o lbl (TEnum fast kt vs) bs u (if fast then [] else [AtVariant (lbl (TEnum fast kt vs) i)]) bs'.

(** Decoding a [t] from [bs] fails in the part named by the steps: there it fails, but not in a part of
    this part. *)
Inductive fails (F : fmt) (p : plat) (o : N) (lbl : ty -> nat -> bytes) : ty -> bytes -> list step -> Prop :=
| fails_here t bs :
    gdec F p o t bs = Err ->
    (forall u s bs', child F p o lbl t bs u s bs' -> gdec F p o u bs' <> Err) ->
    fails F p o lbl t bs []
| fails_in t bs u s bs' q :
    child F p o lbl t bs u s bs' -> fails F p o lbl u bs' q -> fails F p o lbl t bs (s ++ q).
