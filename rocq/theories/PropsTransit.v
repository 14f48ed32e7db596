(** C05-C10: what transitions and terminations exit, run and enter, and in which order. *)
From Verif Require Import Demo Moves.

(** In these theorems [t1] is the trace before the transition (termination) starts and [spans b t2 ks k] says
    that [ks] are the entries about states, actions and history that follow, up to the entry [k]: the result
    of the transition, or the first exception. *)

(** ** Every transition and termination ends with a result or with an exception *)
Theorem C05_transit_spans {W} (ch : chart) (U : user W) s t1 b p c d t2 :
  wf_chart ch = true → user_ok ch U → seen ch U s → tr s = t1 ++ Obs b (OTransit p c d) :: t2 →
  ∃ ks k, spans b t2 ks (Some k) ∧ (k = OResult p c RDiscard ∨ ∃ y, k = OThrow y).
Proof. intros Hwf HU. exact (transit_ends ch U Hwf HU s t1 b p c d t2). Qed.
Print Assumptions C05_transit_spans.
Theorem C05_terminate_spans {W} (ch : chart) (U : user W) s t1 b p c t2 :
  wf_chart ch = true → user_ok ch U → seen ch U s → tr s = t1 ++ Obs b (OTerminate p c) :: t2 →
  ∃ ks k, spans b t2 ks (Some k) ∧ (k = OResult p c RDiscard ∨ ∃ y, k = OThrow y).
Proof. intros Hwf HU. exact (terminate_ends ch U Hwf HU s t1 b p c t2). Qed.
Print Assumptions C05_terminate_spans.

(** ** C05: exit order *)
(** With BOOST_STATECHART_RELAX_TRANSITION_CONTEXT, see C52. *)
Theorem C05_transition {W} (ch : chart) (U : user W) s t1 b p c d t2 ks :
  wf_chart ch = true → user_ok ch U → seen ch U s → tr s = t1 ++ Obs b (OTransit p c d) :: t2 →
  ch_relax ch = None → excepting t1 = false → spans b t2 ks (Some (OResult p c RDiscard)) →
  ∃ L, removals ks = flat_map (λ y : obj, [OExit y.2 y.1; ODtor y.2 y.1]) L ∧
    StronglySorted (λ y z : obj, exit_before ch y.1 z.1) L.
Proof. intros Hwf HU. exact (transit_exit_order ch U Hwf HU s t1 b p c d t2 ks). Qed.
Print Assumptions C05_transition.
Theorem C05_termination {W} (ch : chart) (U : user W) s t1 b p c t2 ks :
  wf_chart ch = true → user_ok ch U → seen ch U s → tr s = t1 ++ Obs b (OTerminate p c) :: t2 →
  excepting t1 = false → spans b t2 ks (Some (OResult p c RDiscard)) →
  ∃ L, removals ks = flat_map (λ y : obj, [OExit y.2 y.1; ODtor y.2 y.1]) L ∧
    StronglySorted (λ y z : obj, exit_before ch y.1 z.1) L.
Proof. intros Hwf HU. exact (terminate_exit_order ch U Hwf HU s t1 b p c t2 ks). Qed.
Print Assumptions C05_termination.
(** terminate() of the machine *)
Theorem C05_terminate {W} (ch : chart) (U : user W) s r s' :
  wf_chart ch = true → user_ok ch U → reach ch U s → call ch U OpTerminate s = (r, s') →
  ∃ ks k T, tr s' = tr s ++ under None ks ++ Obs None k :: T ∧ Forall (λ k, quiet k = true) ks ∧
    ((∃ y, k = OThrow y) ∨ (∃ c x, k = ORefused (ARecord c x)) ∨
     k = OReset ∧ T = [] ∧ r = Ret tt ∧
     ∃ L, removals ks = flat_map (λ y : obj, [OExit y.2 y.1; ODtor y.2 y.1]) L ∧
       StronglySorted (λ y z : obj, exit_before ch y.1 z.1) L ∧ ∀ y, y ∈ L ↔ active s y).
Proof. intros Hwf HU. exact (terminate_exits ch U Hwf HU s r s'). Qed.
Print Assumptions C05_terminate.
(** Whatever exceptions occur, no state is left before the states inside it are destroyed. *)
Theorem C05_inner_first {W} (ch : chart) (U : user W) s t1 b k t2 p c :
  wf_chart ch = true → user_ok ch U → seen ch U s → tr s = t1 ++ Obs b k :: t2 → k = OExit p c ∨ k = ODtor p c →
  ∀ z p', encloses ch (Some c) z → OCtor p' z ∈ map ob t1 → ODtor p' z ∈ map ob t1.
Proof. intros Hwf HU. exact (inside_first ch U Hwf HU s t1 b k t2 p c). Qed.
Print Assumptions C05_inner_first.

Example C05_example :
  tr Demo.demo = take 80 (tr Demo.demo) ++ Obs (Some (ev 2)) (OTransit 8 1 (IState 7)) :: drop 81 (tr Demo.demo) ∧
  excepting (take 80 (tr Demo.demo)) = false ∧
  spans (Some (ev 2)) (drop 81 (tr Demo.demo))
    [OExit 12 5; ODtor 12 5; OExit 9 3; ODtor 9 3; OExit 8 1; ODtor 8 1; OAction (Some 7) 2 (ev 2); OCtor 13 7]
    (Some (OResult 8 1 RDiscard)).
Proof. split; [apply entry; by_compute|]. split; [by_compute|]. apply spansb_ok. by_eval. Qed.
Example C05_example_terminate :
  reach Demo.chart5 Demo.U Demo.demo ∧
  map ob (drop 116 (tr (call Demo.chart5 Demo.U OpTerminate Demo.demo).2)) =
    [OExit 11 2; ODtor 11 2; ORelease; OExit 16 4; ODtor 16 4; OExit 15 3; ODtor 15 3; OExit 14 1; ODtor 14 1;
     OExit 7 0; ODtor 7 0; OReset].
Proof. split; [exact Demo.demo_reach|]. by_compute. Qed.

(** ** C06: a transition exits exactly the states below the innermost common context *)
Theorem C06_transition {W} (ch : chart) (U : user W) s t1 b p c d t2 :
  wf_chart ch = true → user_ok ch U → seen ch U s → tr s = t1 ++ Obs b (OTransit p c d) :: t2 →
  ∃ cc z, innermost_common ch cc c (init_cls d) ∧ lives t1 z ∧ parent ch z.1 = cc ∧ within ch z.1 c ∧
    ∀ ks k, spans b t2 ks k →
      (∀ y : obj, OExit y.2 y.1 ∈ ks ∨ ODtor y.2 y.1 ∈ ks → lives t1 y ∧ within ch z.1 y.1) ∧
      (k = Some (OResult p c RDiscard) → ∀ y, lives t1 y →
        (within ch z.1 y.1 → ODtor y.2 y.1 ∈ ks ∧ (excepting t1 = false → OExit y.2 y.1 ∈ ks)) ∧
        (¬ within ch z.1 y.1 → lives (t1 ++ Obs b (OTransit p c d) :: under b ks) y)).
Proof. intros Hwf HU. exact (transit_destroys ch U Hwf HU s t1 b p c d t2). Qed.
Print Assumptions C06_transition.
(** The transition of C05_example leaves states 1, 3 and 5; state 2, in the other region of state 0, stays. *)
Example C06_example :
  innermost_common Demo.chart5 (Some 0) 1 7 ∧ lives (take 80 (tr Demo.demo)) (2, 11) ∧ ¬ within Demo.chart5 1 2.
Proof.
  split; [|split].
  - split; [exact (encloses_direct Demo.chart5 1)|exact (encloses_direct Demo.chart5 7)|].
    intros y H1 H2. inversion H1 as [|? ? q Hq H]; subst; [by left|]. injection Hq as <-. right. exists 0. done.
  - split; by_compute.
  - intros [?|H]; [done|]. inversion H as [|? ? q Hq H']; subst; [done|]. injection Hq as <-.
    inversion H' as [|? ? q Hq H'']; subst; done.
Qed.

(** ** C07: exit, then transition action, then entry *)
Theorem C07_phases {W} (ch : chart) (U : user W) s t1 b p c d t2 ks k k1 k' k2 :
  wf_chart ch = true → user_ok ch U → seen ch U s → tr s = t1 ++ Obs b (OTransit p c d) :: t2 →
  spans b t2 ks k → ks = k1 ++ k' :: k2 →
  (removal k' = true ∨ is_action k' = true → built k1 = []) ∧
  (removal k' = true → ch_relax ch = None → actions k1 = []).
Proof. intros Hwf HU Hs E Hk. exact (transit_phases ch U Hwf HU s t1 b p c d t2 ks k Hs E Hk k1 k' k2). Qed.
Print Assumptions C07_phases.
(** At most one action runs, for the event that triggered the transition. *)
Theorem C07_one_action {W} (ch : chart) (U : user W) s t1 b p c d t2 ks :
  wf_chart ch = true → user_ok ch U → seen ch U s → tr s = t1 ++ Obs b (OTransit p c d) :: t2 →
  spans b t2 ks (Some (OResult p c RDiscard)) →
  ∃ e, b = Some e ∧ (actions ks = [] ∨ ∃ cx n, actions ks = [OAction cx n e]).
Proof. intros Hwf HU. exact (transit_one_action ch U Hwf HU s t1 b p c d t2 ks). Qed.
Print Assumptions C07_one_action.
(** The transition in which the constructor of state 7 throws. *)
Example C07_example :
  tr Demo.demo = take 26 (tr Demo.demo) ++ Obs (Some (ev 2)) (OTransit 1 1 (IState 7)) :: drop 27 (tr Demo.demo) ∧
  spans (Some (ev 2)) (drop 27 (tr Demo.demo))
    [OExit 5 5; ODtor 5 5; OExit 2 3; ODtor 2 3; OExit 1 1; ODtor 1 1; OAction (Some 0) 2 (ev 2)] (Some (OThrow 3)).
Proof. split; [apply entry; by_compute|]. apply spansb_ok. by_eval. Qed.

(** ** C08: entry order *)
(** [exit_before ch z y]: [z] is inside [y], or in a higher-numbered region of a common outer state. *)
Theorem C08_transition {W} (ch : chart) (U : user W) s t1 b p c d t2 ks k :
  wf_chart ch = true → user_ok ch U → seen ch U s → tr s = t1 ++ Obs b (OTransit p c d) :: t2 →
  spans b t2 ks k → StronglySorted (λ y z, exit_before ch z y) (map fst (built ks)).
Proof. intros Hwf HU. exact (transit_entry_order ch U Hwf HU s t1 b p c d t2 ks k). Qed.
Print Assumptions C08_transition.
(** initiate(): [ks0] is what its implicit terminate() does. *)
Theorem C08_initiate {W} (ch : chart) (U : user W) n s r s' ks0 b T ks k :
  wf_chart ch = true → user_ok ch U → reach ch U s → op_allowed ch U (OpInitiate n) s →
  call ch U (OpInitiate n) s = (r, s') → tr s' = tr s ++ under None ks0 ++ Obs b OReset :: T →
  Forall (λ k, quiet k = true) ks0 → spans None T ks k →
  StronglySorted (λ y z, exit_before ch z y) (map fst (built ks)) ∧
  ((k = None ∨ ∃ e, k = Some (OTake e)) →
    (∃ p, (ch_init ch, p) ∈ built ks) ∧
    ∀ y i, y ∈ built ks → i < nreg ch y.1 → ∃ z, z ∈ built ks ∧ region ch z.1 = (Some y.1, i)).
Proof. intros Hwf HU. exact (initiate_enters ch U Hwf HU n s r s' ks0 b T ks k). Qed.
Print Assumptions C08_initiate.
(** A transition, during exception handling, that enters five states; initiate() of the running machine. *)
Example C08_example :
  tr Demo.demo = take 42 (tr Demo.demo) ++ Obs (Some (ev 50)) (OTransit 0 0 (IState 2)) :: drop 43 (tr Demo.demo) ∧
  spans (Some (ev 50)) (drop 43 (tr Demo.demo))
    [ODtor 4 2; ODtor 0 0; OAction None 1 (ev 50); OCtor 7 0; OCtor 8 1; OCtor 9 3; OCtor 10 4; OCtor 11 2]
    (Some (OResult 0 0 RDiscard)).
Proof. split; [apply entry; by_compute|]. apply spansb_ok. by_eval. Qed.
Example C08_example_initiate :
  op_allowed Demo.chart5 Demo.U Demo.i Demo.demo ∧
  map ob (drop 127 (tr (call Demo.chart5 Demo.U Demo.i Demo.demo).2)) =
    [OReset; OCtor 17 0; OCtor 18 1; OCtor 19 3; OCtor 20 4; OCtor 21 2].
Proof. split; [apply allowedb_ok; by_eval|]. by_compute. Qed.

(** ** C09: destination and complete regions after a transition *)
Theorem C09_transition {W} (ch : chart) (U : user W) s t1 b p c d t2 ks t' :
  wf_chart ch = true → user_ok ch U → seen ch U s → tr s = t1 ++ Obs b (OTransit p c d) :: t2 →
  spans b t2 ks (Some (OResult p c RDiscard)) → t' = t1 ++ Obs b (OTransit p c d) :: under b ks →
  (∀ y, y ∈ built ks → lives t' y) ∧
  reaches ch d (λ c', ∃ p', (c', p') ∈ built ks) ks ∧
  (∀ q, encloses ch (Some q) (init_cls d) → ∃ p', lives t' (q, p')) ∧
  (∀ y i, y ∈ built ks → i < nreg ch y.1 → ∃ z, z ∈ built ks ∧ region ch z.1 = (Some y.1, i)).
Proof. intros Hwf HU. exact (transit_completes ch U Hwf HU s t1 b p c d t2 ks t'). Qed.
Print Assumptions C09_transition.
(** A transition to a deep history state whose history was cleared. *)
Example C09_example :
  tr Demo.demo = take 106 (tr Demo.demo) ++ Obs (Some (ev 2)) (OTransit 13 7 (IDeep 3)) :: drop 107 (tr Demo.demo) ∧
  spans (Some (ev 2)) (drop 107 (tr Demo.demo))
    [OExit 13 7; ODtor 13 7; OAction (Some 7) 22 (ev 2); OCtor 14 1; OHistD 3 3; OCtor 15 3; OCtor 16 4]
    (Some (OResult 13 7 RDiscard)).
Proof. split; [apply entry; by_compute|]. apply spansb_ok. by_eval. Qed.

(** ** C10: termination of a state cascades exactly as far as needed *)
Theorem C10_termination {W} (ch : chart) (U : user W) s t1 b p c t2 ks k t' :
  wf_chart ch = true → user_ok ch U → seen ch U s → tr s = t1 ++ Obs b (OTerminate p c) :: t2 →
  spans b t2 ks k → t' = t1 ++ Obs b (OTerminate p c) :: under b ks →
  (∀ y : obj, OExit y.2 y.1 ∈ ks ∨ ODtor y.2 y.1 ∈ ks → lives t1 y ∧ cascades ch t1 c y) ∧
  (k = Some (OResult p c RDiscard) →
    (∀ y, lives t1 y →
      (cascades ch t1 c y → ODtor y.2 y.1 ∈ ks ∧ (excepting t1 = false → OExit y.2 y.1 ∈ ks)) ∧
      (¬ cascades ch t1 c y → lives t' y)) ∧
    ((∀ y, ¬ lives t' y) ↔ ∀ y, lives t1 y → within ch c y.1 ∨ encloses ch (Some y.1) c)).
Proof. intros Hwf HU. exact (terminate_destroys ch U Hwf HU s t1 b p c t2 ks k t'). Qed.
Print Assumptions C10_termination.
(** State 2 terminates; its outer state 0 has another inner state and stays. Then state 0 terminates, which
    ends the machine. *)
Example C10_example :
  ∃ s, reach Demo.chart5 Demo.U s ∧
    map ob (drop 6 (tr s)) = [OProcess (ev 5); ODispatch (ev 5) [4; 2]; OVisit 3 4 (ev 5); OResult 3 4 RForward;
      OVisit 2 3 (ev 5); OResult 2 3 RForward; OVisit 1 1 (ev 5); OResult 1 1 RForward; OVisit 0 0 (ev 5);
      OResult 0 0 RForward; OVisit 4 2 (ev 5); OTerminate 4 2; OExit 4 2; ODtor 4 2; OResult 4 2 RDiscard; ODone;
      OProcess (ev 1); ODispatch (ev 1) [4]; OVisit 3 4 (ev 1); OResult 3 4 RForward;
      OVisit 2 3 (ev 1); OResult 2 3 RForward; OVisit 1 1 (ev 1); OResult 1 1 RForward; OVisit 0 0 (ev 1);
      OTerminate 0 0; OExit 3 4; ODtor 3 4; OExit 2 3; ODtor 2 3; OExit 1 1; ODtor 1 1; OExit 0 0; ODtor 0 0;
      OResult 0 0 RDiscard; ODone].
Proof.
  apply (played_trace Demo.chart5 Demo.U [Demo.i; Demo.p 5; Demo.p 1] []). by_eval.
Qed.
(** State 5 terminates: its outer states 3 and 1 have nothing else inside, state 0 has. *)
Example C10_example_cascade :
  ∃ s, reach Demo.chart5 Demo.U s ∧
    map ob (drop 22 (tr s)) = [OReact 5 5 0 (ev 9); OTerminate 5 5; OExit 5 5; ODtor 5 5; OExit 2 3; ODtor 2 3;
      OExit 1 1; ODtor 1 1; OResult 5 5 RDiscard; ODone].
Proof.
  apply (played_trace Demo.chart5 Demo.U [Demo.i; Demo.p 8; Demo.p 9] [(PReact 5, Deed [] None DTerminate)]). by_eval.
Qed.
