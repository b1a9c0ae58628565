(** Property C82: strings over the allocator [System]. Specification used: [SysStringSpec.v]. *)
From Verif Require Import Base Utf8 System SystemSpec SysString SysStringSpec BaseFacts Utf8Facts SystemFacts SysStringFacts.
Local Open Scope N_scope.

(** Whatever requests for memory are refused: a program that uses strings sees lists of characters. The replies are those
    of lists, and the bytes of each live string are those of its characters. *)
Theorem C82_texts :
  forall env dbg ops rs w, trun env dbg tworld_empty ops = SDone (rs, w) ->
  exists ts, tcalls [] ops rs ts /\
    forall i s, thing_at ts i (Text s) -> chars s /\
      exists v, handle w i KString = Some v /\ svec_items (w_heap (t_world w)) v = SDone (str_bytes s).
Proof.
  intros env dbg ops rs w E. destruct (treach _ _ _ _ _ E) as (ts & C & (lw & R & V & F)). exists ts. split; [exact C|].
  intros i s H. split; [exact (proj2 (proj2 F i _ H))|]. destruct (handle_ok w ts lw i _ R V F H) as (v & Hv & Hi). exists v. auto.
Qed.
Print Assumptions C82_texts.

(** No call is undefined behaviour, and none panics apart from those that Rust does not let a program make: the bytes that are
    taken for a [str] without a check are always valid UTF-8. *)
Theorem C82_safe :
  forall env dbg ops,
  (exists rs w, trun env dbg tworld_empty ops = SDone (rs, w)) \/
  (exists pre o post rs ts, ops = pre ++ o :: post /\ tcalls [] pre rs ts /\ ~ tallowed ts o /\ trun env dbg tworld_empty ops = SPanic).
Proof.
  intros env dbg ops. destruct (trun_ok env dbg ops _ _ trel_empty) as [(rs & w & ts & E & _)|H]; [left; eauto|right; exact H].
Qed.
Print Assumptions C82_safe.

(** Once all strings are gone, so is all memory: also after a conversion with [collect_string] that ran out of
    it. *)
Theorem C82_no_leak :
  forall env dbg ops rs w, trun env dbg tworld_empty ops = SDone (rs, w) ->
  (forall i, vec_at (t_world w) i = None) -> forall b, block_at (w_heap (t_world w)) b = None.
Proof.
  intros env dbg ops rs w E H b. destruct (treach _ _ _ _ _ E) as (ts & _ & (lw & (W & _) & _ & _)).
  destruct (block_at (w_heap (t_world w)) b) as [x|] eqn:Eb; [|reflexivity]. destruct (wi_live _ _ _ W b x Eb) as (i & v & Hv & _).
  specialize (H i). unfold vec_at in H. rewrite Hv in H. discriminate.
Qed.
Print Assumptions C82_no_leak.

(** A character or string is not added only if the one request for memory was refused, or would have been for more than a
    block can have. *)
Theorem C82_fails :
  forall env dbg ops rs w o i s w', trun env dbg tworld_empty ops = SDone (rs, w) ->
  (o = SPushStr i s \/ exists c, o = SPushChar i c /\ s = [c]) -> tstep env dbg w o = SDone (TFailed, w') ->
  (env (h_count (w_heap (t_world w))) = false /\ h_count (w_heap (t_world w')) = S (h_count (w_heap (t_world w)))) \/
  (h_count (w_heap (t_world w')) = h_count (w_heap (t_world w)) /\
     exists v, vec_at (t_world w) i = Some v /\ isize_max < N.max 8 (N.max (2 * svec_capacity v) (s_len v + lenN (str_bytes s)))).
Proof.
  exact string_fails.
Qed.
Print Assumptions C82_fails.

(** Comparing strings compares their characters, one by one, by their code points: although it is their bytes that are
    compared. *)
Theorem C82_order :
  forall s s', chars s -> chars s' -> string_cmp (str_bytes s) (str_bytes s') = lex s s'.
Proof. exact order. Qed.
Print Assumptions C82_order.

(** Strings are equal when they have the same characters. *)
Theorem C82_equal :
  forall s s', chars s -> chars s' -> (string_cmp (str_bytes s) (str_bytes s') = Eq <-> s = s').
Proof. intros s s' H H'. rewrite (order s s' H H'). apply lex_eq. Qed.
Print Assumptions C82_equal.

(** Characters of one to four bytes, a refused request, conversions in both directions, and bytes that are no string. *)
Example C82_nonvacuous :
  let ops := [SNew; SPushChar 0 0x1F600; SPushStr 0 [0x41; 0xE9; 0x20AC]; SAsStr 0; SIntoBytes 0; SFromUtf8 0; SNewBytes;
              SExtendBytes 1 [0xED; 0xA0; 0x80]; SFromUtf8 1; SCollect [[0x61]; [0x62; 0x63]]; SFromStd [0xDF] 2; SIntoStd 2; SPushStr 3 [0x61; 0x62];
              SDrop 0; SDrop 1; SDrop 3] in
  exists ts w, tcalls [] ops
      [TDone; TDone; TDone; TText [240; 159; 152; 128; 65; 195; 169; 226; 130; 172]; TDone; TDone; TDone; TDone; TNotUtf8; TDone; TDone;
       TStd [97; 98; 99] 8; TFailed; TDone; TDone; TDone] ts /\
    trun (fun n => Nat.ltb n 4) true tworld_empty ops = SDone
      ([TDone; TDone; TDone; TText [240; 159; 152; 128; 65; 195; 169; 226; 130; 172]; TDone; TDone; TDone; TDone; TNotUtf8; TDone; TDone;
       TStd [97; 98; 99] 8; TFailed; TDone; TDone; TDone], w) /\
    forall i, vec_at (t_world w) i = None.
Proof.
  cbv zeta.
  match goal with |- exists _ _, tcalls [] ?ops ?rs _ /\ trun ?e _ _ _ = _ /\ _ =>
    assert (X : exists w, trun e true tworld_empty ops = SDone (rs, w) /\ forall i, vec_at (t_world w) i = None) end.
  { eexists. split; [vm_compute; reflexivity|]. intros [|[|[|[|i]]]]; try reflexivity. unfold vec_at. cbn. now destruct i. }
  destruct X as (w & X & Y). destruct (treach _ _ _ _ _ X) as (ts & C & _). exists ts, w. auto.
Qed.

Example C82_order_nonvacuous :
  chars [0xFFFF; 0x41] /\ chars [0x10000] /\ string_cmp (str_bytes [0xFFFF; 0x41]) (str_bytes [0x10000]) = Lt /\
  lex [0xFFFF; 0x41] [0x10000] = Lt.
Proof. repeat split; repeat constructor. Qed.
