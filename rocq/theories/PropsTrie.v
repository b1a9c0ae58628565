(** Theorems about prefix tries: C37, C54. [es] is the history of insertions: a
    reference to the key in the buffer [bs], and a value. *)
From Coq Require Import Permutation Sorted.
From Verif Require Import Base Options Int BaseFacts Zc ZcBuf Swiss Trie TrieSpec TrieFacts TrieWalk TrieSafe.
Local Open Scope N_scope.

(** * C37 *)

(** Building and storing succeeds. *)
Theorem C37_store V E bs (es : list (sref * V)) : Forall (fun e => ref_in bs (fst e)) es -> room E (lenN bs) (lenN es) ->
  exists t B, trie_store E bs es = Some (ZOk (t, B)).
Proof. intros F R. destruct (stored_weak E bs es F R) as (t & l & mem & _ & Q & _). eauto. Qed.
Print Assumptions C37_store.

(** Iterating gives every insertion, once, with its full key. *)
Theorem C37_iter V E bs (es : list (sref * V)) t B : Forall (fun e => ref_in bs (fst e)) es -> room E (lenN bs) (lenN es) ->
  trie_store E bs es = Some (ZOk (t, B)) ->
  exists out, Permutation out (keyed bs es) /\ yields None E B t [] (map ZOk out).
Proof.
  intros F R Q. destruct (stored_weak E bs es F R) as (t' & l & mem & _ & Q' & W & Rp & P & Nd). rewrite Q in Q'. inversion Q'; subst l B.
  exists (entries bs t'). split; auto. destruct R as (_ & R2 & R3 & _).
  destruct (goes_end E bs (mem_buf bs mem) ltac:(lia) None (1 + nodes t') _ _ (goes_all E bs (mem_buf bs mem) eq_refl ltac:(lia) None (1 + nodes t') t' t W Rp ltac:(lia)))
    as [H|[(c & D & _) _]]; [exact H|discriminate].
Qed.
Print Assumptions C37_iter.

(** With room for [n] on the stack iterating gives the same, or some of it and
    then an error; a stack of [2 * entries + 1] always has room. *)
Theorem C37_iter_fixed V E bs (es : list (sref * V)) t B : Forall (fun e => ref_in bs (fst e)) es -> room E (lenN bs) (lenN es) ->
  trie_store E bs es = Some (ZOk (t, B)) ->
  exists out, Permutation out (keyed bs es) /\ yields None E B t [] (map ZOk out) /\
    forall n, yields (Some n) E B t [] (map ZOk out) \/
      (n < 2 * lenN es + 1 /\ exists o1 o2, out = o1 ++ o2 /\ yields (Some n) E B t [] (map ZOk o1 ++ [ZErr])).
Proof.
  intros F R Q. destruct (stored_weak E bs es F R) as (t' & l & mem & _ & Q' & W & Rp & P & Nd). rewrite Q in Q'. inversion Q'; subst l B.
  exists (entries bs t'). split; auto. destruct R as (_ & R2 & R3 & _).
  pose proof (fun cap => goes_end E bs (mem_buf bs mem) ltac:(lia) cap (1 + nodes t') _ _ (goes_all E bs (mem_buf bs mem) eq_refl ltac:(lia) cap (1 + nodes t') t' t W Rp ltac:(lia))) as G.
  split.
  - destruct (G None) as [H|[(c & D & _) _]]; [exact H|discriminate].
  - intros n. destruct (G (Some n)) as [H|[(c & [= <-] & L) H]]; [left; exact H|right]. split; [lia|exact H].
Qed.
Print Assumptions C37_iter_fixed.

(** What a lookup reports was inserted, for some key. *)
Theorem C37_get_sound V E bs (es : list (sref * V)) t B k : Forall (fun e => ref_in bs (fst e)) es -> room E (lenN bs) (lenN es) ->
  trie_store E bs es = Some (ZOk (t, B)) ->
  exists r, trie_get E B t k = Some (ZOk r) /\ forall vs v, r = Some vs -> In v vs -> In v (map snd es).
Proof.
  intros F R Q. destruct (stored_weak E bs es F R) as (t' & l & mem & _ & Q' & W & Rp & P & Nd). rewrite Q in Q'. inversion Q'; subst l B.
  destruct (get_sound E bs (mem_buf bs mem) eq_refl (S (length k)) [] t' t k W Rp) as (r & G & H); [lia|].
  exists r. split; auto. intros vs v Hr Iv. specialize (H vs v Hr Iv). apply (Permutation_map snd) in P. apply (Permutation_in _ P) in H.
  unfold keyed in H. rewrite map_map in H. exact H.
Qed.
Print Assumptions C37_get_sound.

(** If keys that share their first byte were inserted in ascending order, looking
    up a stored key gives exactly its values, in order. Missing: other orders, and
    keys that are not stored; for both the property fails, see below. *)
Theorem C37_get_partial V E bs (es : list (sref * V)) t B k : Forall (fun e => ref_in bs (fst e)) es -> room E (lenN bs) (lenN es) ->
  ascending (map fst (keyed bs es)) -> trie_store E bs es = Some (ZOk (t, B)) -> In k (map fst (keyed bs es)) ->
  trie_get E B t k = Some (ZOk (Some (values_at k (keyed bs es)))).
Proof.
  intros F R A Q Ik. destruct (stored_weak E bs es F R) as (t' & l & mem & Q0 & Q' & W & Rp & P & Nd). rewrite Q in Q'. inversion Q'; subst l B.
  destruct (stored_strong bs es F A) as (t2 & Q2 & So & Vs). rewrite Q2 in Q0. inversion Q0; subst t2.
  rewrite <- Vs. apply (get_complete E bs (mem_buf bs mem) eq_refl _ true [] t' t k); auto; try lia.
  rewrite Vs. apply in_map_iff in Ik as (e & <- & Ie). intros Z.
  assert (I2 : In (snd e) (values_at (fst e) (keyed bs es))); [|rewrite Z in I2; exact I2].
  apply in_map. apply filter_In. split; auto. apply beqb_refl.
Qed.
Print Assumptions C37_get_partial.

(** ... iterating gives the keys in order, and the values of each in order ... *)
Theorem C37_order_partial V E bs (es : list (sref * V)) t B : Forall (fun e => ref_in bs (fst e)) es -> room E (lenN bs) (lenN es) ->
  ascending (map fst (keyed bs es)) -> trie_store E bs es = Some (ZOk (t, B)) ->
  exists out, yields None E B t [] (map ZOk out) /\ StronglySorted (fun a b => lex_le (fst a) (fst b)) out /\
    forall k, values_at k out = values_at k (keyed bs es).
Proof.
  intros F R A Q. destruct (stored_weak E bs es F R) as (t' & l & mem & Q0 & Q' & W & Rp & P & Nd). rewrite Q in Q'. inversion Q'; subst l B.
  destruct (stored_strong bs es F A) as (t2 & Q2 & So & Vs). rewrite Q2 in Q0. inversion Q0; subst t2. destruct R as (_ & R2 & R3 & _).
  exists (entries bs t'). split; [|split; auto].
  - destruct (goes_end E bs (mem_buf bs mem) ltac:(lia) None (1 + nodes t') _ _ (goes_all E bs (mem_buf bs mem) eq_refl ltac:(lia) None (1 + nodes t') t' t W Rp ltac:(lia)))
      as [H|[(c & D & _) _]]; [exact H|discriminate].
  - pose proof (entries_sorted bs t' true So) as X. unfold sorted_keys in X. clear -X. induction X as [|x l S' IH H]; constructor; auto.
    eapply Forall_impl; [|exact H]. intros y Hy. apply cmp_le_spec. exact Hy.
Qed.
Print Assumptions C37_order_partial.

(** ... and iterating below a prefix of a stored key gives exactly the entries with
    that prefix, in the same order as iterating over everything. *)
Theorem C37_prefix_partial V E bs (es : list (sref * V)) t B : Forall (fun e => ref_in bs (fst e)) es -> room E (lenN bs) (lenN es) ->
  ascending (map fst (keyed bs es)) -> trie_store E bs es = Some (ZOk (t, B)) ->
  exists out, yields None E B t [] (map ZOk out) /\ Permutation out (keyed bs es) /\
    forall q, under q (keyed bs es) <> [] -> yields None E B t q (map ZOk (under q out)).
Proof.
  intros F R A Q. destruct (stored_weak E bs es F R) as (t' & l & mem & Q0 & Q' & W & Rp & P & Nd). rewrite Q in Q'. inversion Q'; subst l B.
  destruct (stored_strong bs es F A) as (t2 & Q2 & So & Vs). rewrite Q2 in Q0. inversion Q0; subst t2. destruct R as (_ & R2 & R3 & _).
  exists (entries bs t'). split; [|split; auto].
  - destruct (goes_end E bs (mem_buf bs mem) ltac:(lia) None (1 + nodes t') _ _ (goes_all E bs (mem_buf bs mem) eq_refl ltac:(lia) None (1 + nodes t') t' t W Rp ltac:(lia)))
      as [H|[(c & D & _) _]]; [exact H|discriminate].
  - intros q Ne. assert (Ne2 : under q (entries bs t') <> []).
    { intros Z. apply Ne. destruct (under q (keyed bs es)) as [|e r] eqn:U; auto. exfalso.
      assert (I : In e (under q (keyed bs es))) by (rewrite U; left; auto). apply filter_In in I as [I Y].
      assert (I2 : In e (under q (entries bs t'))); [|rewrite Z in I2; exact I2]. apply filter_In. split; auto.
      eapply Permutation_in; [apply Permutation_sym; exact P|auto]. }
    destruct (goes_end E bs (mem_buf bs mem) ltac:(lia) None (1 + nodes t') _ _ (goes_under E bs (mem_buf bs mem) eq_refl ltac:(lia) None (1 + nodes t') t' t q W So Rp ltac:(lia) Ne2))
      as [H|[(c & D & _) _]]; [exact H|discriminate].
Qed.
Print Assumptions C37_prefix_partial.

(** ** Where it fails: with 24 byte nodes, 32-bit references *)
Definition exE : tenv := {| eub := 64; emx := 4294967295; ensz := 24 |}.
(** "abc", "abd", "abe", "abcd" *)
Definition abc : bytes := [97; 98; 99].
Definition ab : bytes := [97; 98].
Definition abcde : bytes := [97; 98; 99; 97; 98; 100; 97; 98; 101; 97; 98; 99; 100].
Definition r_abc : sref := (0, 3).
Definition r_ab : sref := (0, 2).
Definition r_a : sref := (0, 1).
Definition r_abd : sref := (3, 3).
Definition r_abe : sref := (6, 3).
Definition r_abcd : sref := (9, 4).

(** Inserting "abd", "abc", "abe" loses "abc" for lookups. *)
Theorem C37_get_refuted : exists t B,
  trie_store exE abcde [(r_abd, 1); (r_abc, 2); (r_abe, 3)] = Some (ZOk (t, B)) /\ key_at abcde r_abc = abc /\
  trie_get exE B t abc = Some (ZOk None).
Proof. do 2 eexists. split; [vm_compute; reflexivity|]. split; vm_compute; reflexivity. Qed.
Print Assumptions C37_get_refuted.
(** Inserting "abc", "ab", "abd" loses the value of "ab" for lookups. *)
Theorem C37_get_values_refuted : exists t B,
  trie_store exE abcde [(r_abc, 1); (r_ab, 2); (r_abd, 3)] = Some (ZOk (t, B)) /\ key_at abcde r_ab = ab /\
  trie_get exE B t ab = Some (ZOk (Some [])).
Proof. do 2 eexists. split; [vm_compute; reflexivity|]. split; vm_compute; reflexivity. Qed.
Print Assumptions C37_get_values_refuted.
(** With "abc" and "abcd", in order, looking up "abd" gives the value of "abcd". *)
Theorem C37_get_absent_refuted : exists t B,
  trie_store exE abcde [(r_abc, 1); (r_abcd, 2)] = Some (ZOk (t, B)) /\
  ascending (map fst (keyed abcde [(r_abc, 1); (r_abcd, 2)])) /\ ~ In [97; 98; 100] (map fst (keyed abcde [(r_abc, 1); (r_abcd, 2)])) /\
  trie_get exE B t [97; 98; 100] = Some (ZOk (Some [2])).
Proof.
  do 2 eexists. split; [vm_compute; reflexivity|]. split; [|split; [|vm_compute; reflexivity]].
  - intros l1 a l2 b l3 Q _. vm_compute in Q. destruct l1 as [|x [|y [|z l1]]]; cbn in Q; try discriminate.
    + inversion Q as [[Qa Qb]]. destruct l2 as [|x l2]; cbn in Qb; inversion Qb; subst; [|destruct l2; discriminate].
      right. left. exists [], 100. reflexivity.
    + destruct l2; discriminate.
  - vm_compute. intros [D|[D|[]]]; discriminate.
Qed.
Print Assumptions C37_get_absent_refuted.
(** ... and iterating below "abd" gives it, under the key "bcd". *)
Theorem C37_prefix_absent_refuted : exists t B,
  trie_store exE abcde [(r_abc, 1); (r_abcd, 2)] = Some (ZOk (t, B)) /\
  yields None exE B t [97; 98; 100] [ZOk ([98; 99; 100], 2)].
Proof.
  do 2 eexists. split; [vm_compute; reflexivity|]. exists 5%nat. intros fuel L. do 5 (destruct fuel as [|fuel]; [lia|]). vm_compute. reflexivity.
Qed.
Print Assumptions C37_prefix_absent_refuted.
(** Inserting "ab" and then "a", iterating below "a" misses "ab". *)
Theorem C37_prefix_refuted : exists t B,
  trie_store exE abcde [(r_ab, 1); (r_a, 2)] = Some (ZOk (t, B)) /\
  under [97] (keyed abcde [(r_ab, 1); (r_a, 2)]) = [(ab, 1); ([97], 2)] /\
  yields None exE B t [97] [ZOk ([97], 2)].
Proof.
  do 2 eexists. split; [vm_compute; reflexivity|]. split; [vm_compute; reflexivity|].
  exists 5%nat. intros fuel L. do 5 (destruct fuel as [|fuel]; [lia|]). vm_compute. reflexivity.
Qed.
Print Assumptions C37_prefix_refuted.

(** The hypotheses are met: "abc", "abcd", "abd", "abe" *)
Definition ex_es : list (sref * N) := [(r_abc, 1); (r_abcd, 2); (r_abd, 3); (r_abd, 4); (r_abe, 5)].
Lemma ex_ascending : ascending (map fst (keyed abcde ex_es)).
Proof.
  assert (S' : StronglySorted (fun a b => cmp_bytes a b <> Gt) (map fst (keyed abcde ex_es)))
    by (repeat constructor; discriminate).
  intros l1 a l2 b l3 Q _. rewrite Q in S'. clear Q. induction l1 as [|x l1 IH]; cbn [app] in S'; inversion S' as [|? ? S1 S2]; subst; auto.
  rewrite Forall_forall in S2. apply cmp_le_spec. apply S2. apply in_app_iff. right. left. auto.
Qed.
Example C37_nonvacuous : Forall (fun e => ref_in abcde (fst e)) ex_es /\ room exE (lenN abcde) (lenN ex_es) /\
  ascending (map fst (keyed abcde ex_es)) /\
  exists t B, trie_store exE abcde ex_es = Some (ZOk (t, B)) /\
    trie_get exE B t [97; 98; 100] = Some (ZOk (Some [3; 4])) /\
    yields None exE B t abc [ZOk (abc, 1); ZOk ([97; 98; 99; 100], 2)] /\
    yields (Some 1) exE B t [] [ZErr].
Proof.
  split; [unfold ref_in; repeat constructor; cbn; lia|]. split; [unfold room; vm_compute; repeat split; discriminate|].
  split; [apply ex_ascending|]. do 2 eexists. split; [vm_compute; reflexivity|]. split; [vm_compute; reflexivity|]. split.
  - exists 12%nat. intros fuel L. do 12 (destruct fuel as [|fuel]; [lia|]). vm_compute. reflexivity.
  - exists 12%nat. intros fuel L. do 12 (destruct fuel as [|fuel]; [lia|]). vm_compute. reflexivity.
Qed.

(** * C54 *)

(** A lookup ends whatever was loaded, and gives a value or an error as long as
    the slices of children have offsets that references can hold. *)
Theorem C54_get_partial V E (B : tbuf V) t k : emx E < 2 ^ eub E -> validates B ->
  (in_range E t /\ forall off nd, tnode B off = ZOk nd -> in_range E (nlinks nd)) ->
  exists r, trie_get E B t k = Some r /\ calm r.
Proof.
  intros M [H1 H2] [R Rs]. destruct (get_ends E B (S (length k)) t k ltac:(lia)) as [r G]. exists r. split; auto.
  eapply get_calm; eauto.
Qed.
Print Assumptions C54_get_partial.
Theorem C54_get_ends V E (B : tbuf V) t k : exists r, trie_get E B t k = Some r.
Proof. apply get_ends. lia. Qed.
Print Assumptions C54_get_ends.

(** Iterating with a stack of fixed capacity, also below a prefix, always ends. *)
Theorem C54_iter_fixed_ends V E (B : tbuf V) t q n : exists k, forall fuel, (k <= fuel)%nat -> snd (iter_in fuel (Some n) E B t q) = true.
Proof. apply ends_all. Qed.
Print Assumptions C54_iter_fixed_ends.
(** Iterating gives values and errors under the same condition. *)
Theorem C54_iter_partial V E (B : tbuf V) t q cap fuel : emx E < 2 ^ eub E -> validates B ->
  (in_range E t /\ forall off nd, tnode B off = ZOk nd -> in_range E (nlinks nd)) ->
  Forall calm (fst (iter_in fuel cap E B t q)).
Proof.
  intros M [H1 H2] [R Rs]. apply items_calm; auto. split; [constructor|exact R].
Qed.
Print Assumptions C54_iter_partial.

(** Without it both panic: a damaged number of children ... *)
Definition far : links N := {| lvals := []; lch := (0, 4294967295) |}.
Definition blank : tbuf N := {| tstr := str_load []; tnode := fun _ => ZErr |}.
Theorem C54_get_refuted : validates blank /\ trie_get exE blank far [97] = Some ZPanic.
Proof.
  split; [|unfold trie_get; cbn [get_loop length]; unfold search_nodes, binary_search_by; generalize (N.to_nat (snd (lch far))); intros k; vm_compute; reflexivity].
  split; [|intros; exact I]. intros s. cbn [tstr blank].
  destruct (str_load_cases [] s) as [[_ ->]|[_ ->]]; exact I.
Qed.
Print Assumptions C54_get_refuted.
(** ... and with a growable stack iterating may never end: a node that is its own
    child *)
Definition ring : tbuf N := {| tstr := str_load []; tnode := fun _ => ZOk {| nstr := (0, 0); nlinks := {| lvals := []; lch := (0, 1) |} |} |}.
Theorem C54_iter_refuted : validates ring /\ forall fuel, iter_in fuel None exE ring {| lvals := []; lch := (0, 1) |} [] = ([], false).
Proof.
  split. { split; [|intros; exact I]. intros s. cbn [tstr ring]. destruct (str_load_cases [] s) as [[_ ->]|[_ ->]]; exact I. }
  intros fuel. unfold iter_in.
  assert (H : forall fuel st, walk_items fuel None exE ring (WStack, ((0, 1), 0, []) :: st) = ([], false) /\ walk_items fuel None exE ring (WValues [] [], ((0, 1), 0, []) :: st) = ([], false)).
  { induction fuel0 as [|fuel0 IH]; intros st; [split; reflexivity|]. split.
    - cbn [walk_items]. apply (proj2 (IH (((0, 1), 1, []) :: st))).
    - cbn [walk_items]. apply (proj1 (IH st)). }
  destruct fuel as [|fuel]; [reflexivity|]. cbn [walk_items]. apply (H fuel []).
Qed.
Print Assumptions C54_iter_refuted.

Example C54_nonvacuous : exists t B, trie_store exE abcde ex_es = Some (ZOk (t, B)) /\ in_range exE t /\ validates B.
Proof.
  destruct C37_nonvacuous as (F & R & _). destruct (stored_weak exE abcde ex_es F R) as (t & l & mem & _ & Q & _).
  assert (H : match trie_store exE abcde ex_es with Some (ZOk (t, _)) => in_range exE t | _ => False end) by (vm_compute; discriminate).
  rewrite Q in H. exists l, (mem_buf abcde mem). split; auto. split; auto. split.
  - intros s. cbn [tstr mem_buf]. destruct (str_load_cases abcde s) as [[_ ->]|[_ ->]]; exact I.
  - intros off. cbn [tnode mem_buf]. destruct (List.find _ mem) as [[? ?]|]; exact I.
Qed.
