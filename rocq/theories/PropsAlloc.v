(** Allocators that throw (C54): where the exception is thrown, what has been done before, and what is lost. *)
From Verif Require Import Demo Recall Alloc.

(** ** C54: exceptions of the allocator *)
(** The exception is thrown at once.  If there is no memory for the list entry of a state then that state is
    an innermost one, and it was constructed immediately before.  If a state cannot be recorded in the history of
    its outer state then its exit() was called immediately before; it is destructed next (C20_exit). *)
Theorem C54_thrown {W} (ch : chart) (U : user W) s t1 b a t2 :
  wf_chart ch = true → user_ok ch U → seen ch U s → tr s = t1 ++ Obs b (ORefused a) :: t2 →
  (∃ y t', t2 = Obs b (OThrow y) :: t') ∧
  (∀ c, a = AEntry c → is_leaf ch c = true ∧
    ∃ t0 p u, t1 = t0 ++ Obs b (OCtor p c) :: u ∧ Forall (λ o, quiet (ob o) = true ∧ is_life (ob o) = false) u) ∧
  ∀ c x, a = ARecord c x → element ch c x ∧
    ∃ t0 p u, t1 = t0 ++ Obs b (OExit p c) :: u ∧ Forall (λ o, quiet (ob o) = true ∧ is_life (ob o) = false) u.
Proof. intros Hwf HU Hs E. exact (everya_seen ch U Hwf HU s Hs t1 (Obs b (ORefused a)) t2 E). Qed.
Print Assumptions C54_thrown.
(** A state that cannot be recorded completely: its exit() has returned, and it is destructed right after the exception
    is thrown.  It has been recorded for the regions that come before the one for which there was no memory (first
    the shallow history, then the deep histories from the inside out); for all others, also for that region,
    everything recorded before stays. *)
Theorem C54_record {W} (ch : chart) (U : user W) s t1 b c x t2 :
  wf_chart ch = true → user_ok ch U → seen ch U s → tr s = t1 ++ Obs b (ORefused (ARecord c x)) :: t2 →
  element ch c x ∧ ∃ t0 b0 p u y b' t3, t1 = t0 ++ Obs b0 (OExit p c) :: u ∧ Forall (λ o, user_call (ob o) = true) u ∧
    t2 = Obs b (OThrow y) :: Obs b' (ODtor p c) :: t3 ∧
    ∀ r h, let t' := t1 ++ [Obs b (ORefused (ARecord c x)); Obs b (OThrow y); Obs b' (ODtor p c)] in
      (shallow_memory ch t' r h ↔ in_shallow ch c x r ∧ h = c ∨ ¬ in_shallow ch c x r ∧ shallow_memory ch t1 r h) ∧
      (deep_memory ch t' r h ↔ in_deep ch c x r ∧ h = c ∨ ¬ in_deep ch c x r ∧ deep_memory ch t1 r h).
Proof. intros Hwf HU. exact (record_refused ch U Hwf HU s t1 b c x t2). Qed.
Print Assumptions C54_record.
(** During a transition: memory for new states is only needed when all the states that the transition leaves have been
    left.  The state that cannot be created is the next one in the order in which states are entered.  If a state
    cannot be recorded then it is the last one exited, and no state has been entered yet. *)
Theorem C54_transition {W} (ch : chart) (U : user W) s t1 b p c d t2 ks k a :
  wf_chart ch = true → user_ok ch U → seen ch U s → tr s = t1 ++ Obs b (OTransit p c d) :: t2 →
  spans b t2 ks k → ORefused a ∈ ks →
  ∃ ks0 y cc z, ks = ks0 ++ [ORefused a] ∧ k = Some (OThrow y) ∧
    innermost_common ch cc c (init_cls d) ∧ lives t1 z ∧ parent ch z.1 = cc ∧ within ch z.1 c ∧
    let all_left := ∀ x, lives t1 x → within ch z.1 x.1 → ODtor x.2 x.1 ∈ ks0 ∧ (excepting t1 = false → OExit x.2 x.1 ∈ ks0) in
    match a with
    | AState c' => all_left ∧ StronglySorted (λ y z, exit_before ch z y) (map fst (built ks0) ++ [c'])
    | AEntry c' => all_left ∧ is_leaf ch c' = true ∧ ∃ l p', built ks0 = l ++ [(c', p')]
    | ARecord c' x => element ch c' x ∧ built ks0 = [] ∧
        (ch_relax ch = None → actions ks0 = []) ∧ ∃ l p', removals ks0 = l ++ [OExit p' c']
    | ADefer _ => False
    end.
Proof.
  intros Hwf HU Hs E Hsp Hin.
  destruct (transit_refused ch U Hwf HU s t1 b p c d t2 ks k a Hs E Hsp Hin) as (ks0 & y & cc & z & H1 & H2 & H3 & H4 & H5 & H6 & H7 & H8).
  exists ks0, y, cc, z. split_and!; try done. destruct a as [c'|c'|c' x|e]; simpl in *; [| | |done].
  - destruct H7 as [[(? & ? & ?) _]|[_ ?]]; [done|by split].
  - destruct H7 as [[(? & ? & ?) _]|[_ ?]]; [done|by split].
  - destruct H8 as [H8 H9]. destruct H7 as [(_ & H10 & H11)|[H7 _]]; [by split_and!|by destruct (H7 c' x)].
Qed.
Print Assumptions C54_transition.
(** A termination needs memory only to record in the history the state it has exited last. *)
Theorem C54_termination {W} (ch : chart) (U : user W) s t1 b p c t2 ks k a :
  wf_chart ch = true → user_ok ch U → seen ch U s → tr s = t1 ++ Obs b (OTerminate p c) :: t2 →
  spans b t2 ks k → ORefused a ∈ ks →
  ∃ ks0 y c' x, a = ARecord c' x ∧ ks = ks0 ++ [ORefused a] ∧ k = Some (OThrow y) ∧
    element ch c' x ∧ ∃ l p', removals ks0 = l ++ [OExit p' c'].
Proof. intros Hwf HU. exact (terminate_refused ch U Hwf HU s t1 b p c t2 ks k a). Qed.
Print Assumptions C54_termination.
(** initiate(): [ks0] is what its implicit terminate() does. *)
Theorem C54_initiate {W} (ch : chart) (U : user W) n s r s' ks0 b T ks k a :
  wf_chart ch = true → user_ok ch U → reach ch U s → op_allowed ch U (OpInitiate n) s →
  call ch U (OpInitiate n) s = (r, s') → tr s' = tr s ++ under None ks0 ++ Obs b OReset :: T →
  Forall (λ k, quiet k = true) ks0 → spans None T ks k → ORefused a ∈ ks →
  ∃ k0 y, ks = k0 ++ [ORefused a] ∧ k = Some (OThrow y) ∧
    match a with
    | AState c' => StronglySorted (λ y z, exit_before ch z y) (map fst (built k0) ++ [c'])
    | AEntry c' => is_leaf ch c' = true ∧ ∃ l p', built k0 = l ++ [(c', p')]
    | ARecord _ _ | ADefer _ => False
    end.
Proof.
  intros Hwf HU Hr Ha Hc E Hq Hsp Hin.
  destruct (initiate_refused ch U Hwf HU n s r s' ks0 b T ks k a Hr Ha Hc E Hq Hsp Hin) as (k0 & y & H1 & H2 & H3 & H4).
  exists k0, y. split_and!; try done. destruct a as [c'|c'|c' x|e]; try done. by destruct (H4 c' x).
Qed.
Print Assumptions C54_initiate.
(** There is no memory to defer the event: the exception is not translated and reaches the caller, nothing happens
    after it, the active states, the queued and the deferred events are those there were before. *)
Theorem C54_deferral {W} (ch : chart) (U : user W) s o r s' T T1 b e T2 :
  wf_chart ch = true → user_ok ch U → reach ch U s → op_ok ch o = true → op_allowed ch U o s → call ch U o s = (r, s') →
  tr s' = tr s ++ T → T = T1 ++ Obs b (ORefused (ADefer e)) :: T2 →
  b = None ∧ ∃ y, r = Exn y ∧ T2 = [Obs None (OThrow y)] ∧
  (∀ x, active s' x ↔ lives (tr s ++ T1) x) ∧
  queue (en s') = pending (tr s ++ T1) ∧ deferred (en s') = waiting (tr s ++ T1).
Proof. intros Hwf HU. exact (defer_refused ch U Hwf HU s o r s' T T1 b e T2). Qed.
Print Assumptions C54_deferral.

(** There is no memory for state 5, the target of a transition.  The exception is then handled by a transition of
    the outermost state. *)
Example C54_example_state : ∃ s, reach Demo.chart5 Demo.U s ∧ map ob (drop 9 (tr s)) =
  [OTransit 3 4 (IState 5); OExit 3 4; ODtor 3 4; ORefused (AState 5); OThrow 3; OCatch 3; OHandle 2 (ev 50);
   OVisit 2 3 (ev 50); OResult 2 3 RForward; OVisit 1 1 (ev 50); OResult 1 1 RForward; OVisit 0 0 (ev 50);
   OReact 0 0 2 (ev 50); OTransit 0 0 (IState 2); ODtor 4 2; ODtor 2 3; ODtor 1 1; ODtor 0 0;
   OCtor 5 0; OCtor 6 1; OCtor 7 3; OCtor 8 4; OCtor 9 2; OResult 0 0 RDiscard; OHandled; ODone].
Proof.
  apply (played_trace Demo.chart5 Demo.U [Demo.i; Demo.p 8]
    [(PAlloc (AState 5), Deed [] (Some 3) DDiscard); (PReact 0, Deed [] None (DTransit (IState 2) None))]). by_eval.
Qed.
(** The same transition, but there is no memory for the list entry of state 5.  The exception is not handled. *)
Example C54_example_entry : ∃ s s', reach Demo.chart5 Demo.U s ∧ op_ok Demo.chart5 (Demo.p 8) = true ∧ op_allowed Demo.chart5 Demo.U (Demo.p 8) s ∧
  call Demo.chart5 Demo.U (Demo.p 8) s = (Exn 3, s') ∧
  map ob (drop 9 (tr s')) =
  [OTransit 3 4 (IState 5); OExit 3 4; ODtor 3 4; OCtor 5 5; ORefused (AEntry 5); OThrow 3; ODtor 5 5; OCatch 3; OHandle 2 (ev 50);
   OVisit 2 3 (ev 50); OResult 2 3 RForward; OVisit 1 1 (ev 50); OResult 1 1 RForward; OVisit 0 0 (ev 50);
   OReact 0 0 2 (ev 50); OResult 0 0 RDiscard; OUnhandled; ODtor 4 2; ODtor 2 3; ODtor 1 1; ODtor 0 0; OReset; ODone].
Proof.
  apply (played_call_exn Demo.chart5 Demo.U [Demo.i] [(PAlloc (AEntry 5), Deed [] (Some 3) DDiscard)] (Demo.p 8) 3 9). by_eval.
Qed.
(** initiate() cannot allocate the last state, which is in the second region of the outermost one. *)
Example C54_example_initiate : ∃ s s', reach Demo.chart5 Demo.U s ∧ op_ok Demo.chart5 Demo.i = true ∧ op_allowed Demo.chart5 Demo.U Demo.i s ∧
  call Demo.chart5 Demo.U Demo.i s = (Exn 3, s') ∧
  map ob (drop 0 (tr s')) = [OReset; OCtor 0 0; OCtor 1 1; OCtor 2 3; OCtor 3 4; ORefused (AState 2); OThrow 3;
    OCatch 3; OHandle 0 (ev 50); OVisit 0 0 (ev 50); OReact 0 0 2 (ev 50); OResult 0 0 RDiscard; OUnhandled;
    ODtor 3 4; ODtor 2 3; ODtor 1 1; ODtor 0 0; OReset].
Proof.
  apply (played_call_exn Demo.chart5 Demo.U [] [(PAlloc (AState 2), Deed [] (Some 3) DDiscard)] Demo.i 3 0). by_eval.
Qed.
(** There is no memory to record, in the deep history of state 1, state 4, which a transition leaves: the transition
    does not enter state 5. *)
Example C54_example_record : ∃ s s', reach Demo.chart5 Demo.U s ∧ op_ok Demo.chart5 (Demo.p 8) = true ∧ op_allowed Demo.chart5 Demo.U (Demo.p 8) s ∧
  call Demo.chart5 Demo.U (Demo.p 8) s = (Exn 3, s') ∧
  map ob (drop 9 (tr s')) =
  [OTransit 3 4 (IState 5); OExit 3 4; ORefused (ARecord 4 (Some 3)); OThrow 3; ODtor 3 4; OCatch 3; OHandle 2 (ev 50);
   OVisit 2 3 (ev 50); OResult 2 3 RForward; OVisit 1 1 (ev 50); OResult 1 1 RForward; OVisit 0 0 (ev 50);
   OReact 0 0 2 (ev 50); OResult 0 0 RDiscard; OUnhandled; ODtor 4 2; ODtor 2 3; ODtor 1 1; ODtor 0 0; OReset; ODone].
Proof.
  apply (played_call_exn Demo.chart5 Demo.U [Demo.i] [(PAlloc (ARecord 4 (Some 3)), Deed [] (Some 3) DDiscard)] (Demo.p 8) 3 9). by_eval.
Qed.
(** Part of state 6 is recorded: state 1 has both histories, and there is no memory for the deep one.  The exception
    is handled by a transition to the shallow history of state 1, which enters state 6. *)
Example C54_example_partial : ∃ s, reach Demo.chart5 Demo.U s ∧ map ob (drop 40 (tr s)) =
  [OTransit 1 1 (IState 7); OExit 6 6; ORefused (ARecord 6 (Some 6)); OThrow 3; ODtor 6 6; OCatch 3; OHandle 1 (ev 50);
   OVisit 1 1 (ev 50); OResult 1 1 RForward; OVisit 0 0 (ev 50); OReact 0 0 2 (ev 50); OTransit 0 0 (IShallow 3);
   ODtor 4 2; ODtor 1 1; ODtor 0 0; OCtor 7 0; OCtor 8 1; OHistS 3 6; OCtor 9 6; OCtor 10 2; OResult 0 0 RDiscard; OHandled; ODone].
Proof.
  apply (played_trace Demo.chart5 Demo.U [Demo.i; Demo.p 8; Demo.p 9; Demo.p 2]
    [(PReact 5, Deed [] None (DTransit (IState 6) None)); (PAlloc (ARecord 6 (Some 6)), Deed [] (Some 3) DDiscard);
     (PReact 0, Deed [] None (DTransit (IShallow 3) None))]). by_eval.
Qed.
(** If there is no memory for the shallow history then it still holds state 3, which was left before. *)
Example C54_example_none : ∃ s, reach Demo.chart5 Demo.U s ∧ map ob (drop 40 (tr s)) =
  [OTransit 1 1 (IState 7); OExit 6 6; ORefused (ARecord 6 None); OThrow 3; ODtor 6 6; OCatch 3; OHandle 1 (ev 50);
   OVisit 1 1 (ev 50); OResult 1 1 RForward; OVisit 0 0 (ev 50); OReact 0 0 2 (ev 50); OTransit 0 0 (IShallow 3);
   ODtor 4 2; ODtor 1 1; ODtor 0 0; OCtor 7 0; OCtor 8 1; OHistS 3 3; OCtor 9 3; OCtor 10 4; OCtor 11 2; OResult 0 0 RDiscard; OHandled; ODone].
Proof.
  apply (played_trace Demo.chart5 Demo.U [Demo.i; Demo.p 8; Demo.p 9; Demo.p 2]
    [(PReact 5, Deed [] None (DTransit (IState 6) None)); (PAlloc (ARecord 6 None), Deed [] (Some 3) DDiscard);
     (PReact 0, Deed [] None (DTransit (IShallow 3) None))]). by_eval.
Qed.
(** The same for a termination of state 2 (shallow history), and for terminate(). *)
Example C54_example_termination : ∃ s s', reach Demo.chart5 Demo.U s ∧ op_ok Demo.chart5 (Demo.p 5) = true ∧ op_allowed Demo.chart5 Demo.U (Demo.p 5) s ∧
  call Demo.chart5 Demo.U (Demo.p 5) s = (Exn 3, s') ∧
  map ob (drop 17 (tr s')) =
  [OTerminate 4 2; OExit 4 2; ORefused (ARecord 2 None); OThrow 3; ODtor 4 2; OCatch 3; OHandle 0 (ev 50); OVisit 0 0 (ev 50);
   OReact 0 0 2 (ev 50); OResult 0 0 RDiscard; OUnhandled; ODtor 3 4; ODtor 2 3; ODtor 1 1; ODtor 0 0; OReset; ODone].
Proof.
  apply (played_call_exn Demo.chart5 Demo.U [Demo.i] [(PAlloc (ARecord 2 None), Deed [] (Some 3) DDiscard)] (Demo.p 5) 3 17). by_eval.
Qed.
Example C54_example_terminate : ∃ s s', reach Demo.chart5 Demo.U s ∧ op_ok Demo.chart5 OpTerminate = true ∧ op_allowed Demo.chart5 Demo.U OpTerminate s ∧
  call Demo.chart5 Demo.U OpTerminate s = (Exn 3, s') ∧
  map ob (drop 6 (tr s')) =
  [OExit 4 2; ODtor 4 2; OExit 3 4; ODtor 3 4; OExit 2 3; ODtor 2 3; OExit 1 1; ORefused (ARecord 1 None); OThrow 3; ODtor 1 1;
   OCatch 3; OHandle 0 (ev 50); OVisit 0 0 (ev 50); OReact 0 0 2 (ev 50); OResult 0 0 RDiscard; OUnhandled; ODtor 0 0; OReset].
Proof.
  apply (played_call_exn Demo.chart5 Demo.U [Demo.i] [(PAlloc (ARecord 1 None), Deed [] (Some 3) DDiscard)] OpTerminate 3 6). by_eval.
Qed.
(** An event cannot be deferred while another one is waiting in the queue. *)
Example C54_example_deferral : ∃ s s', reach Demo.chart5 Demo.U s ∧ op_ok Demo.chart5 (Demo.p 3) = true ∧ op_allowed Demo.chart5 Demo.U (Demo.p 3) s ∧
  call Demo.chart5 Demo.U (Demo.p 3) s = (Exn 3, s') ∧
  map ob (drop 17 (tr s')) = [OVisit 4 2 (ev 3); OResult 4 2 RDefer; ODone; ORefused (ADefer (ev 3)); OThrow 3].
Proof.
  apply (played_call_exn Demo.chart5 Demo.U [Demo.i; OpPost (ev 8)] [(PAlloc (ADefer (ev 3)), Deed [] (Some 3) DDiscard)] (Demo.p 3) 3 17). by_eval.
Qed.

(** The documentation says that process_event() throws what the exception translator or unconsumed_event() propagates
    and that in the first case all states are destructed (doc/reference.html, state_machine modifier functions).  When
    the event cannot be deferred this is false: process_event() throws, although neither has propagated an exception;
    the machine is still running and its queue is not empty, but the event is gone. *)
Theorem C54_defer_refuted : ∃ (s s' : mst script heapst) y e, wf_chart Demo.chart5 = true ∧ user_ok Demo.chart5 Demo.U ∧
  reach Demo.chart5 Demo.U s ∧ op_ok Demo.chart5 (OpProcess 10 e) = true ∧ op_allowed Demo.chart5 Demo.U (OpProcess 10 e) s ∧
  call Demo.chart5 Demo.U (OpProcess 10 e) s = (Exn y, s') ∧
  (∀ x, OUnconsumed x ∉ map ob (tr s')) ∧ OUnhandled ∉ map ob (tr s') ∧ terminated s' = false ∧
  queue (en s') ≠ [] ∧ e ∉ queue (en s') ∧ e ∉ deferred (en s').
Proof.
  destruct (played Demo.chart5 Demo.U [Demo.i; OpPost (ev 8)] [(PAlloc (ADefer (ev 3)), Deed [] (Some 3) DDiscard)]
    (λ s, match call Demo.chart5 Demo.U (Demo.p 3) s with
          | (Exn y, s') => bool_decide (y = 3) && (forallb (λ k, match k with OUnconsumed _ | OUnhandled => false | _ => true end) (map ob (tr s')) &&
              (negb (terminated s') && (bool_decide (queue (en s') = [ev 8]) && bool_decide (deferred (en s') = [])))) | _ => false end)) as (s & Hs & H); [by_eval|].
  destruct (call Demo.chart5 Demo.U (Demo.p 3) s) as [[[]|y|f|] s'] eqn:E; try done.
  rewrite !andb_true_iff, !bool_decide_eq_true, forallb_forall, negb_true_iff in H. destruct H as (-> & H1 & H2 & H3 & H4).
  exists s, s', 3, (ev 3). split_and!; try done.
  - apply Demo.U_ok.
  - intros x Hx%elem_of_list_In. by apply H1 in Hx.
  - intros Hx%elem_of_list_In. by apply H1 in Hx.
  - by rewrite H3.
  - rewrite H3. intros Hx. by apply elem_of_list_singleton in Hx.
  - rewrite H4. by intros Hx%elem_of_nil.
Qed.
Print Assumptions C54_defer_refuted.
