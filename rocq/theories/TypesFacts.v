(** Lemmas about [Types]. *)
From Verif Require Import Base Options Int Utf8 Types BaseFacts IntFacts.
From Coq Require Import ZifyBool ZifyNat ZifyN.
Local Open Scope N_scope.

(** ** Induction over types *)

Section TyInd.
  Variable P : ty -> Prop.
  Hypothesis HUnit : P TUnit.
  Hypothesis HBool : P TBool.
  Hypothesis HChar : P TChar.
  Hypothesis HU : forall w, P (TU w).
  Hypothesis HI : forall w, P (TI w).
  Hypothesis HUsize : P TUsize.
  Hypothesis HIsize : P TIsize.
  Hypothesis HF32 : P TF32.
  Hypothesis HF64 : P TF64.
  Hypothesis HNonZero : forall w, P (TNonZero w).
  Hypothesis HStr : P TStr.
  Hypothesis HBytes : P TBytes.
  Hypothesis HArr : forall n, P (TArr n).
  Hypothesis HOpt : forall t, P t -> P (TOpt t).
  Hypothesis HBox : forall t, P t -> P (TBox t).
  Hypothesis HVec : forall t, P t -> P (TVec t).
  Hypothesis HArray : forall n t, P t -> P (TArray n t).
  Hypothesis HSet : forall t, P t -> P (TSet t).
  Hypothesis HTup : forall ts, Forall P ts -> P (TTup ts).
  Hypothesis HMap : forall k v, P k -> P v -> P (TMap k v).
  Hypothesis HPack : forall c fs, Forall (fun ft => P (snd ft)) fs -> P (TPack c fs).
  Hypothesis HStruct : forall kt fs, P kt -> Forall (fun ft => P (snd ft)) fs -> P (TStruct kt fs).
  Hypothesis HTag : forall kt tags, P kt -> P (TTag kt tags).
  Hypothesis HEnum : forall f kt vs, P kt -> Forall (fun tv => P (snd tv)) vs -> P (TEnum f kt vs).

  Fixpoint ty_ind' (t : ty) : P t :=
    match t with
    | TUnit => HUnit | TBool => HBool | TChar => HChar | TU w => HU w | TI w => HI w
    | TUsize => HUsize | TIsize => HIsize | TF32 => HF32 | TF64 => HF64
    | TNonZero w => HNonZero w | TStr => HStr | TBytes => HBytes | TArr n => HArr n
    | TOpt t => HOpt t (ty_ind' t)
    | TBox t => HBox t (ty_ind' t)
    | TVec t => HVec t (ty_ind' t)
    | TArray n t => HArray n t (ty_ind' t)
    | TSet t => HSet t (ty_ind' t)
    | TTup ts =>
        HTup ts ((fix go ts : Forall P ts :=
          match ts with [] => Forall_nil _ | t :: r => Forall_cons _ (ty_ind' t) (go r) end) ts)
    | TMap k v => HMap k v (ty_ind' k) (ty_ind' v)
    | TPack c fs =>
        HPack c fs ((fix go fs : Forall (fun ft => P (snd ft)) fs :=
          match fs with [] => Forall_nil _
          | ft :: r => Forall_cons _ (ty_ind' (snd ft)) (go r) end) fs)
    | TStruct kt fs =>
        HStruct kt fs (ty_ind' kt) ((fix go fs : Forall (fun ft => P (snd ft)) fs :=
          match fs with [] => Forall_nil _
          | ft :: r => Forall_cons _ (ty_ind' (snd ft)) (go r) end) fs)
    | TTag kt tags => HTag kt tags (ty_ind' kt)
    | TEnum f kt vs =>
        HEnum f kt vs (ty_ind' kt) ((fix go fs : Forall (fun ft => P (snd ft)) fs :=
          match fs with [] => Forall_nil _
          | ft :: r => Forall_cons _ (ty_ind' (snd ft)) (go r) end) vs)
    end.
End TyInd.

Section ValInd.
  Variable P : val -> Prop.
  Hypothesis HUnit : P VUnit.
  Hypothesis HBool : forall b, P (VBool b).
  Hypothesis HN : forall n, P (VN n).
  Hypothesis HZ : forall z, P (VZ z).
  Hypothesis HBytes : forall bs, P (VBytes bs).
  Hypothesis HNone : P VNone.
  Hypothesis HSome : forall v, P v -> P (VSome v).
  Hypothesis HList : forall vs, Forall P vs -> P (VList vs).
  Hypothesis HMap : forall kvs, Forall (fun kv => P (fst kv) /\ P (snd kv)) kvs -> P (VMap kvs).
  Hypothesis HVar : forall i v, P v -> P (VVar i v).

  Fixpoint val_ind' (v : val) : P v :=
    match v with
    | VUnit => HUnit | VBool b => HBool b | VN n => HN n | VZ z => HZ z | VBytes b => HBytes b
    | VNone => HNone | VSome v => HSome v (val_ind' v)
    | VList vs => HList vs ((fix go vs : Forall P vs :=
        match vs with [] => Forall_nil _ | v :: r => Forall_cons _ (val_ind' v) (go r) end) vs)
    | VMap kvs => HMap kvs ((fix go kvs : Forall (fun kv => P (fst kv) /\ P (snd kv)) kvs :=
        match kvs with [] => Forall_nil _
        | kv :: r => Forall_cons _ (conj (val_ind' (fst kv)) (val_ind' (snd kv))) (go r) end) kvs)
    | VVar i v => HVar i v (val_ind' v)
    end.
End ValInd.

(** ** Equality of values *)

Lemma val_eqb_eq a : forall b, val_eqb a b = true <-> a = b.
Proof.
  induction a using val_ind'; intros [|y|y|y|y| |y|y|y|j y]; cbn [val_eqb];
    try (split; intros E; discriminate E); try (split; reflexivity).
  - rewrite Bool.eqb_true_iff. split; congruence.
  - rewrite N.eqb_eq. split; congruence.
  - rewrite Z.eqb_eq. split; congruence.
  - destruct (list_eq_dec N.eq_dec bs y); split; congruence.
  - rewrite IHa. split; congruence.
  - revert y. induction H as [|v vs Hv _ IH]; intros [|w ws]; try (split; congruence).
    rewrite andb_true_iff, Hv, IH. split.
    + intros [-> E]. now inversion E.
    + intros E; inversion E; auto.
  - revert y. induction H as [|[k v] vs [Hk Hv] _ IH]; intros [|[k' w] ws]; try (split; congruence).
    cbn in Hk, Hv. rewrite !andb_true_iff, Hk, Hv, IH. split.
    + intros [[-> ->] E]. now inversion E.
    + intros E; inversion E; auto.
  - rewrite andb_true_iff, Nat.eqb_eq, IHa. split; [intros [-> ->]; reflexivity|].
    intros E; inversion E; auto.
Qed.

Lemma val_eqb_refl a : val_eqb a a = true.
Proof. now apply val_eqb_eq. Qed.

Lemma val_eqb_neq a b : val_eqb a b = false <-> a <> b.
Proof.
  split.
  - intros H ->. rewrite val_eqb_refl in H. discriminate.
  - intros H. destruct (val_eqb a b) eqn:E; [|reflexivity]. apply val_eqb_eq in E. congruence.
Qed.

Lemma existsb_val v l : existsb (val_eqb v) l = true <-> In v l.
Proof.
  rewrite existsb_exists. split.
  - intros [x [Hx E]]. apply val_eqb_eq in E. congruence.
  - intros H. exists v. split; [assumption|apply val_eqb_refl].
Qed.

Lemma distinct_NoDup l : distinct l = true <-> NoDup l.
Proof.
  induction l as [|v r IH]; cbn.
  - split; [constructor|reflexivity].
  - rewrite andb_true_iff, IH, negb_true_iff. split.
    + intros [H1 H2]. constructor; [|assumption]. intros Hin. apply existsb_val in Hin. congruence.
    + intros H. inversion H; subst. split; [|assumption].
      destruct (existsb (val_eqb v) r) eqn:E; [|reflexivity]. apply existsb_val in E. contradiction.
Qed.

Lemma find_name_some k names i : find_name k names = Some i -> nth_error names i = Some k.
Proof.
  revert i; induction names as [|n r IH]; intros i; cbn; [discriminate|].
  destruct (val_eqb k n) eqn:E.
  - intros H; inversion H; subst. apply val_eqb_eq in E. cbn. congruence.
  - destruct (find_name k r) as [j|]; cbn; [|discriminate].
    intros H; inversion H; subst. cbn. now apply IH.
Qed.

Lemma find_name_nth names i k : NoDup names -> nth_error names i = Some k ->
  find_name k names = Some i.
Proof.
  revert i; induction names as [|n r IH]; intros i Hd Hn; [destruct i; discriminate|].
  inversion Hd; subst. cbn. destruct i as [|i]; cbn in Hn.
  - inversion Hn; subst. now rewrite val_eqb_refl.
  - destruct (val_eqb k n) eqn:E.
    + apply val_eqb_eq in E; subst. apply nth_error_In in Hn. contradiction.
    + rewrite (IH i) by assumption. reflexivity.
Qed.

Lemma find_name_none k names : find_name k names = None <-> ~ In k names.
Proof.
  induction names as [|n r IH]; cbn; [split; [tauto|reflexivity]|].
  destruct (val_eqb k n) eqn:E.
  - apply val_eqb_eq in E; subst. split; [discriminate|]. intros H; exfalso; apply H; now left.
  - apply val_eqb_neq in E. destruct (find_name k r); cbn.
    + split; [discriminate|]. intros H. exfalso.
      destruct IH as [_ IH]. assert (~ In k r) by tauto. specialize (IH H0). discriminate.
    + split; [|reflexivity]. intros _ [H|H]; [congruence|]. now apply IH.
Qed.

(** ** Round-trip relations *)

(** [d] reads back what [e] wrote for values satisfying [P]; with [tail] only when nothing
    follows. *)
Definition rt (tail : bool) (P : val -> bool) (e : val -> res bytes) (d : dec val) : Prop :=
  forall v bs rest, P v = true -> (tail = true -> rest = []) -> e v = Ok bs ->
    d (bs ++ rest) = Ok (v, rest).

Lemma rt_weaken tail P e d : rt false P e d -> rt tail P e d.
Proof. intros H v bs rest Hp _ He. apply H; auto. discriminate. Qed.

Lemma dec_count_nil d bs : dec_count 0 d bs = Ok ([], bs).
Proof. reflexivity. Qed.

Lemma dec_iter_acc (d : dec val) n : forall acc bs,
  iter_nat n (fun s => let* (v, r) := d (snd s) in Ok (v :: fst s, r)) (acc, bs) =
  let* (vs, r) := iter_nat n (fun s => let* (v, r) := d (snd s) in Ok (v :: fst s, r)) ([], bs) in
  Ok (vs ++ acc, r).
Proof.
  induction n as [|n IH]; intros acc bs; cbn [iter_nat]; [reflexivity|].
  cbn [snd fst bind]. destruct (d bs) as [[v r]| |]; cbn [bind]; try reflexivity.
  rewrite (IH (v :: acc)), (IH [v]).
  destruct (iter_nat n _ ([], r)) as [[vs r']| |]; cbn [bind]; try reflexivity.
  now rewrite <- app_assoc.
Qed.

Lemma dec_count_succ (d : dec val) n bs :
  dec_count (N.succ n) d bs =
  let* (v, r) := d bs in let* (vs, r') := dec_count n d r in Ok (v :: vs, r').
Proof.
  unfold dec_count. rewrite !iterN_nat, N2Nat.inj_succ. cbn [iter_nat snd fst].
  destruct (d bs) as [[v r]| |]; cbn [bind]; try reflexivity.
  rewrite iterN_nat, (dec_iter_acc d _ [v]).
  destruct (iter_nat _ _ ([], r)) as [[vs r']| |]; cbn [bind]; try reflexivity.
  rewrite rev_app_distr. reflexivity.
Qed.

Lemma dec_count_cons d (x : val) xs bs :
  dec_count (lenN (x :: xs)) d bs =
  let* (v, r) := d bs in let* (vs, r') := dec_count (lenN xs) d r in Ok (v :: vs, r').
Proof. rewrite lenN_cons, N.add_1_l. apply dec_count_succ. Qed.

Lemma dec_count_rt P e d : rt false P e d ->
  forall vs bs rest, forallb P vs = true -> concat_res e vs = Ok bs ->
    dec_count (lenN vs) d (bs ++ rest) = Ok (vs, rest).
Proof.
  intros Hrt. induction vs as [|v vs IH]; intros bs rest Hp He.
  - cbn in He. inversion He; subst. reflexivity.
  - cbn in Hp, He. apply andb_true_iff in Hp. destruct Hp as [Hv Hvs].
    inv_bind He. inv_bind He. inversion He; subst.
    rewrite dec_count_cons, <- app_assoc, (Hrt v) by (assumption || discriminate).
    cbn [bind]. rewrite (IH _ rest) by assumption. reflexivity.
Qed.

(** Lists of encoders and decoders, with the last one possibly at the end of the input. *)
Fixpoint rts (tail : bool) (Ps : list (val -> bool)) (es : list (val -> res bytes))
    (ds : list (dec val)) : Prop :=
  match Ps, es, ds with
  | [], [], [] => True
  | P :: Ps', e :: es', d :: ds' =>
      rt (match Ps' with [] => tail | _ => false end) P e d /\ rts tail Ps' es' ds'
  | _, _, _ => False
  end.

Lemma dec_list_rt tail Ps es ds : rts tail Ps es ds ->
  forall vs bs rest, all2 Ps vs = true -> (tail = true -> rest = []) ->
    enc_list es vs = Ok bs -> dec_list ds (bs ++ rest) = Ok (vs, rest).
Proof.
  revert es ds; induction Ps as [|P Ps IH]; intros [|e es] [|d ds] H vs bs rest Hv Ht He;
    cbn in H; try contradiction; destruct vs as [|v vs]; cbn in Hv, He; try discriminate.
  - inversion He; subst. reflexivity.
  - apply andb_true_iff in Hv. destruct Hv as [Hv Hvs]. destruct H as [Hrt Hrts].
    inv_bind He. inv_bind He. inversion He; subst. cbn [dec_list].
    rewrite <- app_assoc.
    destruct Ps as [|P' Ps].
    + destruct es, ds; cbn in Hrts; try contradiction. destruct vs; cbn in Hvs; [|discriminate].
      cbn in He1. inversion He1; subst. cbn [app].
      rewrite (Hrt v) by assumption. reflexivity.
    + rewrite (Hrt v) by (assumption || discriminate). cbn [bind].
      rewrite (IH es ds Hrts vs _ rest) by assumption. reflexivity.
Qed.

Lemma enc_list_length es vs bs : enc_list es vs = Ok bs -> length es = length vs.
Proof.
  revert vs bs; induction es as [|e es IH]; intros [|v vs] bs H; cbn in H; try discriminate;
    [reflexivity|].
  inv_bind H. inv_bind H. cbn. f_equal. eauto.
Qed.

Lemma all2_length Ps vs : all2 Ps vs = true -> length Ps = length vs.
Proof.
  revert vs; induction Ps as [|P Ps IH]; intros [|v vs] H; cbn in H; try discriminate;
    [reflexivity|].
  apply andb_true_iff in H. cbn. f_equal. now apply IH.
Qed.

(** ** Sets and maps *)

Lemma set_insert_fresh v s : ~ In v s -> set_insert v s = s ++ [v].
Proof.
  intros H. unfold set_insert. destruct (existsb (val_eqb v) s) eqn:E; [|reflexivity].
  apply existsb_val in E. contradiction.
Qed.

Lemma map_insert_fresh k v m : ~ In k (map fst m) -> map_insert k v m = m ++ [(k, v)].
Proof.
  induction m as [|[k' v'] m IH]; cbn; intros H; [reflexivity|].
  destruct (val_eqb k k') eqn:E; [apply val_eqb_eq in E; subst; tauto|].
  rewrite IH by tauto. reflexivity.
Qed.

Definition set_step (d : dec val) (s : list val * bytes) : res (list val * bytes) :=
  let* (v, r) := d (snd s) in Ok (set_insert v (fst s), r).

Lemma dec_set_rt P e d : rt false P e d ->
  forall vs bs rest acc, forallb P vs = true -> NoDup (acc ++ vs) ->
    concat_res e vs = Ok bs ->
    iterN (lenN vs) (set_step d) (acc, bs ++ rest) = Ok (acc ++ vs, rest).
Proof.
  intros Hrt. unfold lenN. induction vs as [|v vs IH]; intros bs rest acc Hp Hd He.
  - cbn in He. inversion He; subst. cbn. now rewrite app_nil_r.
  - cbn in Hp, He. apply andb_true_iff in Hp. destruct Hp as [Hv Hvs].
    inv_bind He. inv_bind He. inversion He; subst.
    rewrite iterN_of_nat. cbn [length iter_nat]. unfold set_step at 1. cbn [fst snd].
    rewrite <- app_assoc, (Hrt v) by (assumption || discriminate). cbn [bind].
    rewrite set_insert_fresh.
    2:{ apply NoDup_remove in Hd. intros Hin. apply (proj2 Hd). apply in_or_app. now left. }
    replace (acc ++ v :: vs) with ((acc ++ [v]) ++ vs) in * by now rewrite <- app_assoc.
    rewrite <- iterN_of_nat. now apply IH.
Qed.

Definition map_step (dk dv : dec val) (s : list (val * val) * bytes)
    : res (list (val * val) * bytes) :=
  let* (k, r) := dk (snd s) in
  let* (v, r') := dv r in
  Ok (map_insert k v (fst s), r').

Lemma dec_map_rt Pk Pv ek ev dk dv : rt false Pk ek dk -> rt false Pv ev dv ->
  forall kvs bs rest acc,
    forallb (fun kv => Pk (fst kv) && Pv (snd kv)) kvs = true ->
    NoDup (map fst acc ++ map fst kvs) ->
    concat_res (fun kv => let* a := ek (fst kv) in let* b := ev (snd kv) in Ok (a ++ b)) kvs = Ok bs ->
    iterN (lenN kvs) (map_step dk dv) (acc, bs ++ rest) = Ok (acc ++ kvs, rest).
Proof.
  intros Hk Hv. unfold lenN. induction kvs as [|[k v] kvs IH]; intros bs rest acc Hp Hd He.
  - cbn in He. inversion He; subst. cbn. now rewrite app_nil_r.
  - cbn in Hp, He. rewrite !andb_true_iff in Hp. destruct Hp as [[Hpk Hpv] Hvs].
    inv_bind He. inv_bind He. inversion He; subst. inv_bind He0. inv_bind He0. inversion He0; subst.
    rewrite iterN_of_nat. cbn [length iter_nat]. unfold map_step at 1. cbn [fst snd].
    rewrite <- !app_assoc, (Hk k) by (assumption || discriminate). cbn [bind].
    rewrite (Hv v) by (assumption || discriminate). cbn [bind].
    cbn [map fst] in Hd.
    rewrite map_insert_fresh.
    2:{ apply NoDup_remove in Hd. intros Hin. apply (proj2 Hd). apply in_or_app. now left. }
    replace (acc ++ (k, v) :: kvs) with ((acc ++ [(k, v)]) ++ kvs) in * by now rewrite <- app_assoc.
    rewrite <- iterN_of_nat. apply IH; try assumption.
    rewrite map_app. cbn. now rewrite <- app_assoc.
Qed.

(** ** Structs *)

(** The slots that the entries written for [vs] fill. *)
Fixpoint written (fs : list finfo) (vs : list val) : slots :=
  match fs, vs with
  | f :: fs', v :: vs' => (if fskip f v then None else Some v) :: written fs' vs'
  | _, _ => []
  end.

Lemma set_slot_app pre x post v :
  set_slot (length pre) v (pre ++ x :: post) = pre ++ Some v :: post.
Proof. induction pre as [|y pre IH]; cbn; [reflexivity|]. now rewrite IH. Qed.

Definition fields_rt (Ps : list (val -> bool)) (es : list (val -> res bytes)) (ds : list (dec val)) :=
  rts false Ps es ds.

Lemma nth_error_mid {A} (pre : list A) x post : nth_error (pre ++ x :: post) (length pre) = Some x.
Proof. induction pre; cbn; auto. Qed.

(** Reading back the entries that were written. [pre] are the fields already handled. *)
Lemma dec_fields_rt Pk ek dk skip : rt false Pk ek dk ->
  forall fs es ds Ps vs bs rest spre npre dpre,
    forallb (fun f => Pk (fname f)) fs = true ->
    NoDup (npre ++ map fname fs) ->
    length npre = length spre -> length dpre = length spre ->
    length fs = length Ps ->
    fields_rt Ps es ds -> all2 Ps vs = true ->
    enc_fields ek (combine fs es) vs = Ok bs ->
    iterN (count_fields fs vs)
      (dec_field dk (npre ++ map fname fs) (dpre ++ ds) skip)
      (spre ++ map (fun _ => None) fs, bs ++ rest)
    = Ok (spre ++ written fs vs, rest).
Proof.
  intros Hk. induction fs as [|f fs IH];
    intros es ds Ps vs bs rest spre npre dpre Hn Hd Hl1 Hl2 Hlp Hrts Hv He.
  - destruct Ps; [|discriminate]. cbn in Hv. destruct vs; [|discriminate].
    cbn in He. inversion He; subst. reflexivity.
  - destruct Ps as [|P Ps]; [discriminate|]. cbn in Hlp.
    destruct es as [|e es]; [destruct ds; cbn in Hrts; contradiction|].
    destruct ds as [|d ds]; [cbn in Hrts; contradiction|].
    cbn [fields_rt rts] in Hrts. destruct Hrts as [Hrt Hrts].
    assert (Hrt' : rt false P e d) by (destruct Ps; exact Hrt).
    destruct vs as [|v vs]; [discriminate|]. cbn [all2] in Hv.
    apply andb_true_iff in Hv. destruct Hv as [Hv Hvs].
    cbn [forallb] in Hn. apply andb_true_iff in Hn. destruct Hn as [Hnf Hn].
    cbn [enc_fields combine] in He. cbn [count_fields map written].
    assert (Hnames : npre ++ fname f :: map fname fs = (npre ++ [fname f]) ++ map fname fs)
      by now rewrite <- app_assoc.
    assert (Hds : dpre ++ d :: ds = (dpre ++ [d]) ++ ds) by now rewrite <- app_assoc.
    destruct (fskip f v) eqn:Es.
    + rewrite N.add_0_l.
      replace (spre ++ None :: map (fun _ : finfo => None) fs)
        with ((spre ++ [@None val]) ++ map (fun _ => None) fs) by now rewrite <- app_assoc.
      replace (spre ++ None :: written fs vs) with ((spre ++ [None]) ++ written fs vs)
        by now rewrite <- app_assoc.
      rewrite Hnames, Hds. apply (IH es ds Ps); try assumption.
      * cbn [map] in Hd. now rewrite Hnames in Hd.
      * rewrite !app_length. cbn. lia.
      * rewrite !app_length. cbn. lia.
      * lia.
    + inv_bind He. inv_bind He. inv_bind He. inversion He; subst.
      rewrite N.add_1_l, iterN_nat, N2Nat.inj_succ. cbn [iter_nat].
      unfold dec_field at 1. cbn [snd fst].
      rewrite <- !app_assoc, (Hk (fname f)) by (assumption || discriminate). cbn [bind].
      rewrite (find_name_nth _ (length npre)) by
        (first [exact Hd | apply nth_error_mid]).
      rewrite Hl1, <- Hl2, nth_error_mid.
      rewrite (Hrt' v) by (assumption || discriminate). cbn [bind].
      rewrite Hl2, set_slot_app.
      replace (spre ++ Some v :: map (fun _ : finfo => None) fs)
        with ((spre ++ [Some v]) ++ map (fun _ => None) fs) by now rewrite <- app_assoc.
      replace (spre ++ Some v :: written fs vs) with ((spre ++ [Some v]) ++ written fs vs)
        by now rewrite <- app_assoc.
      rewrite <- iterN_nat. rewrite Hnames, Hds. apply (IH es ds Ps); try assumption.
      * cbn [map] in Hd. now rewrite Hnames in Hd.
      * rewrite !app_length. cbn. lia.
      * rewrite !app_length. cbn. lia.
      * lia.
Qed.

Lemma fill_written fs vs : length fs = length vs ->
  (forall f v, In f fs -> fskip f v = true -> fdefault f = Some v) ->
  fill fs (written fs vs) = Ok vs.
Proof.
  revert vs; induction fs as [|f fs IH]; intros [|v vs] Hl Hs; try discriminate; [reflexivity|].
  cbn. destruct (fskip f v) eqn:E; cbn.
  - rewrite (Hs f v (or_introl eq_refl) E). cbn. rewrite IH; [reflexivity|now inversion Hl|].
    intros g w Hg. apply Hs. now right.
  - rewrite IH; [reflexivity|now inversion Hl|]. intros g w Hg. apply Hs. now right.
Qed.

Lemma allP_Forall {A} (Q : A -> Prop) l : allP (map Q l) <-> Forall Q l.
Proof.
  induction l as [|x l IH]; cbn; [split; auto|]. rewrite IH. split.
  - intros [H1 H2]; constructor; assumption.
  - intros H; inversion H; auto.
Qed.

Lemma in_sb_s tb z : in_sb tb z = true <-> in_s tb z.
Proof. unfold in_sb, in_s. lia. Qed.
