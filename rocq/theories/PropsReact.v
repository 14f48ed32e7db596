(** C07, C11, C12, C18, C22-C24, C29: reactions, dispatching and exceptions. *)
From Verif Require Import Demo Unstable.

(** In these theorems [tr s] is everything that happened; [t1] is the part before the entry in question and
    [t2] the part after it. *)

(** ** C11: where a reaction is looked for *)
(** A state that is asked to react runs the first of its reactions that matches; it forwards the event if
    there is none. *)
Theorem C11_search {W} (ch : chart) (U : user W) s t1 b p c e t2 :
  wf_chart ch = true → user_ok ch U → seen ch U s → tr s = t1 ++ Obs b (OVisit p c e) :: t2 →
  b = Some e ∧ lives t1 (c, p) ∧
  ((∀ r, r ∈ cd_reacts (cd ch c) → matches (reaction_pat r) e = false) ∧ (∃ t3, t2 = Obs b (OResult p c RForward) :: t3) ∨
   ∃ i r, first_match (cd_reacts (cd ch c)) e i r ∧ performs U b p c e i r t2).
Proof. intros Hwf HU. exact (visit_reacts ch U Hwf HU s t1 b p c e t2). Qed.
Print Assumptions C11_search.
(** A state is asked because dispatching starts with it, because an exception event is sent to it, because the
    state directly inside forwarded the event, or, if it is innermost, because the search that started at
    another innermost state ended with the outermost state forwarding the event. *)
Theorem C11_asked {W} (ch : chart) (U : user W) s t1 b p c e t2 :
  wf_chart ch = true → user_ok ch U → seen ch U s → tr s = t1 ++ Obs b (OVisit p c e) :: t2 →
  ∃ t0 b0 k0, t1 = t0 ++ [Obs b0 k0] ∧
    ((∃ e' ls, k0 = ODispatch e' ls ∧ hd_error ls = Some c) ∨ (∃ xe, k0 = OHandle p xe) ∨
     (∃ p' c', k0 = OResult p' c' RForward ∧
        (parent ch c' = Some c ∨ parent ch c' = None ∧ is_leaf ch c = true))).
Proof. intros Hwf HU. exact (visit_asked ch U Hwf HU s t1 b p c e t2). Qed.
Print Assumptions C11_asked.
(** A forwarded event goes to the directly outer state at once. *)
Theorem C11_outward {W} (ch : chart) (U : user W) s t1 b p c t2 q :
  wf_chart ch = true → user_ok ch U → seen ch U s → tr s = t1 ++ Obs b (OResult p c RForward) :: t2 →
  parent ch c = Some q →
  ∃ e p' t3, b = Some e ∧ t2 = Obs b (OVisit p' q e) :: t3 ∧ lives (t1 ++ [Obs b (OResult p c RForward)]) (q, p').
Proof. intros Hwf HU. exact (result_outward ch U Hwf HU s t1 b p c t2 q). Qed.
Print Assumptions C11_outward.

(** Two states forward; the third, directly outside, has a matching transition. *)
Example C11_example :
  tr Demo.demo = take 21 (tr Demo.demo) ++ Obs (Some (ev 2)) (OVisit 5 5 (ev 2)) :: drop 22 (tr Demo.demo) ∧
  tr Demo.demo = take 24 (tr Demo.demo) ++ Obs (Some (ev 2)) (OResult 2 3 RForward) :: drop 25 (tr Demo.demo) ∧
  parent Demo.chart5 3 = Some 1 ∧
  map ob (take 6 (drop 21 (tr Demo.demo))) = [OVisit 5 5 (ev 2); OResult 5 5 RForward; OVisit 2 3 (ev 2); OResult 2 3 RForward;
    OVisit 1 1 (ev 2); OTransit 1 1 (IState 7)].
Proof. split; [apply entry; by_compute|]. split; [apply entry; by_compute|]. split; by_compute. Qed.

(** ** C07: the action of a declared transition is run *)
Theorem C07_declared_action {W} (ch : chart) (U : user W) s t1 b p c e d t2 ks i act pt :
  wf_chart ch = true → user_ok ch U → seen ch U s →
  tr s = t1 ++ Obs b (OVisit p c e) :: Obs b (OTransit p c d) :: t2 →
  first_match (cd_reacts (cd ch c)) e i (RTransition pt d act) →
  spans b t2 ks (Some (OResult p c RDiscard)) → ∃ cx, actions ks = match act with None => [] | Some n => [OAction cx n e] end.
Proof. intros Hwf HU. exact (declared_action ch U Hwf HU s t1 b p c e d t2 ks i act pt). Qed.
Print Assumptions C07_declared_action.
Example C07_example_declared :
  tr Demo.demo = take 79 (tr Demo.demo) ++ Obs (Some (ev 2)) (OVisit 8 1 (ev 2)) ::
    Obs (Some (ev 2)) (OTransit 8 1 (IState 7)) :: drop 81 (tr Demo.demo) ∧
  first_match (cd_reacts (cd Demo.chart5 1)) (ev 2) 0 (RTransition (EType 2) (IState 7) (Some 2)) ∧
  spans (Some (ev 2)) (drop 81 (tr Demo.demo))
    [OExit 12 5; ODtor 12 5; OExit 9 3; ODtor 9 3; OExit 8 1; ODtor 8 1; OAction (Some 7) 2 (ev 2); OCtor 13 7]
    (Some (OResult 8 1 RDiscard)).
Proof.
  split; [by_compute|]. split; [|apply spansb_ok; by_eval]. split; [done|]. split; [done|]. intros j r' Hj. lia.
Qed.

(** ** C12: an event is consumed at most once, and reported when nobody consumed it *)
(** The innermost states are asked in the order of [state_begin(), state_end()), which is [ls]: one search each,
    until one does not end with RForward.  Then the event is left: with the result of that search, after
    unconsumed_event() if every search forwarded the event, or after an exception. *)
Theorem C12_dispatch {W} (ch : chart) (U : user W) s t1 b e ls t2 :
  wf_chart ch = true → user_ok ch U → seen ch U s → tr s = t1 ++ Obs b (ODispatch e ls) :: t2 →
  b = Some e ∧ ls = map fst (order_of ch t1) ∧ innermost ch t1 ls ∧
  ∃ T1 T2 T3, t2 = T1 ++ T2 ++ Obs None ODone :: T3 ∧
  Forall (λ o, ob_trig o = Some e ∧ innerk (ob o) = true ∧ still (ob o) = true ∧ is_throw (ob o) = false) T1 ∧
  leaves_asked ch T1 `prefix_of` ls ∧ (ls = [] → T1 = []) ∧
  ((∃ T0 p c r, T2 = [] ∧ r ≠ RForward ∧ T1 = T0 ++ [Obs (Some e) (OResult p c r)] ∧ forwards T0) ∨
   (∃ ks y, T2 = under (Some e) (OUnconsumed e :: ks) ∧ called ks y ∧ forwards T1 ∧ leaves_asked ch T1 = ls) ∨
   (∃ y T4, T2 = Obs (Some e) (OThrow y) :: T4 ∧ ls ≠ [] ∧ forwards T1 ∧
      Forall (λ o, ob o ≠ ODone ∧ ∀ e, ob o ≠ OUnconsumed e) T4)).
Proof.
  intros Hwf HU Hs E. destruct (event_shape ch U Hwf HU s t1 b e ls t2 Hs E) as (H1 & H2 & H3). split; [done|].
  split; [|done]. destruct (seen_truthful ch U Hwf HU s Hs) as [Ht _]. exact (Ht _ _ _ _ E).
Qed.
Print Assumptions C12_dispatch.
(** unconsumed_event() is called for the event being dispatched, after every innermost state forwarded it. *)
Theorem C12_unconsumed {W} (ch : chart) (U : user W) s t1 b e t2 :
  wf_chart ch = true → user_ok ch U → seen ch U s → tr s = t1 ++ Obs b (OUnconsumed e) :: t2 →
  ∃ t0 ls T1, t1 = t0 ++ Obs (Some e) (ODispatch e ls) :: T1 ∧ forwards T1 ∧ leaves_asked ch T1 = ls ∧
    Forall (λ o, ob o ≠ ODone ∧ is_throw (ob o) = false ∧ ∀ e', ob o ≠ OUnconsumed e') T1.
Proof. intros Hwf HU. exact (unconsumed_why ch U Hwf HU s t1 b e t2). Qed.
Print Assumptions C12_unconsumed.
(** A terminated machine reports every event. *)
Theorem C12_terminated {W} (ch : chart) (U : user W) s t1 b e ls t2 :
  wf_chart ch = true → user_ok ch U → seen ch U s → tr s = t1 ++ Obs b (ODispatch e ls) :: t2 → (∀ x, ¬ lives t1 x) →
  ls = [] ∧ ∃ t3, t2 = Obs (Some e) (OUnconsumed e) :: t3.
Proof. intros Hwf HU. exact (terminated_reports ch U Hwf HU s t1 b e ls t2). Qed.
Print Assumptions C12_terminated.

(** The first innermost state forwards, the second consumes. *)
Example C12_example :
  tr Demo.demo = take 70 (tr Demo.demo) ++ Obs (Some (ev 2)) (ODispatch (ev 2) [2; 5]) :: drop 71 (tr Demo.demo) ∧
  map ob (take 20 (drop 71 (tr Demo.demo))) = [OVisit 11 2 (ev 2); OResult 11 2 RForward; OVisit 7 0 (ev 2); OResult 7 0 RForward;
    OVisit 12 5 (ev 2); OResult 12 5 RForward; OVisit 9 3 (ev 2); OResult 9 3 RForward; OVisit 8 1 (ev 2); OTransit 8 1 (IState 7);
    OExit 12 5; ODtor 12 5; OExit 9 3; ODtor 9 3; OExit 8 1; ODtor 8 1; OAction (Some 7) 2 (ev 2); OCtor 13 7; OResult 8 1 RDiscard; ODone].
Proof. split; [apply entry; by_compute|by_compute]. Qed.
(** Nobody consumes the event: unconsumed_event() is called; it posts another one. *)
Example C12_example_unconsumed :
  ∃ s, reach Demo.chart5 Demo.U s ∧
    map ob (drop 6 (tr s)) = [OProcess (ev 33); ODispatch (ev 33) [4; 2]; OVisit 3 4 (ev 33); OResult 3 4 RForward;
      OVisit 2 3 (ev 33); OResult 2 3 RForward; OVisit 1 1 (ev 33); OResult 1 1 RForward; OVisit 0 0 (ev 33);
      OResult 0 0 RForward; OVisit 4 2 (ev 33); OResult 4 2 RForward; OVisit 0 0 (ev 33); OResult 0 0 RForward;
      OUnconsumed (ev 33); OPost (ev 4); ODone; OTake (ev 4); ODispatch (ev 4) [4; 2]; OVisit 3 4 (ev 4); OResult 3 4 RForward;
      OVisit 2 3 (ev 4); OResult 2 3 RForward; OVisit 1 1 (ev 4); OResult 1 1 RForward; OVisit 0 0 (ev 4);
      OResult 0 0 RForward; OVisit 4 2 (ev 4); OInState 4 (ev 4); OResult 4 2 RDiscard; ODone].
Proof.
  apply (played_trace Demo.chart5 Demo.U [Demo.i; Demo.p 33] [(PUnc, Deed [CPost (ev 4)] None DDiscard)]). by_eval.
Qed.
(** A terminated machine. *)
Example C12_example_terminated :
  ∃ s, reach Demo.chart5 Demo.U s ∧ map ob (tr s) = [OProcess (ev 1); ODispatch (ev 1) []; OUnconsumed (ev 1); ODone].
Proof. apply (played_trace Demo.chart5 Demo.U [Demo.p 1] [] 0). by_eval. Qed.

(** ** C18: an exception that escapes destroys all states without calling exit() *)
(** Either unconsumed_event(), or the allocator that was asked for the memory to defer the event, threw it at the
    very end of the call, or the machine is terminated, every state object is destroyed, and after the exception was
    thrown no exit() was called. *)
Theorem C18_escapes {W} (ch : chart) (U : user W) s o y s' :
  wf_chart ch = true → user_ok ch U → reach ch U s → op_ok ch o = true → op_allowed ch U o s →
  call ch U o s = (Exn y, s') →
  ∃ T, tr s' = tr s ++ T ∧
    ((∃ T0 e kc, T = T0 ++ under (Some e) (OUnconsumed e :: kc ++ [OThrow y]) ++ under None [ODone] ∧ calls kc) ∨
     (∃ T0 e, T = T0 ++ under None [ODone; ORefused (ADefer e); OThrow y]) ∨
     terminated s' = true ∧ (∀ x, ¬ active s' x) ∧
     (∀ p c, OCtor p c ∈ map ob (tr s') → ODtor p c ∈ map ob (tr s')) ∧
     ∃ T1 b T2, T = T1 ++ Obs b (OThrow y) :: T2 ∧
       Forall (λ o, (∀ p c, ob o ≠ OExit p c) ∧ (∀ z, ob o ≠ OThrow z) ∧ ob o ≠ OHandled) T2).
Proof.
  intros Hwf HU Hr H1 H2 H3. destruct (raised_call ch U Hwf HU s o y s' Hr H1 H2 H3) as (T & E & H). exists T. split; [done|].
  destruct H as [H|[((T1 & b & T2 & ET & HT2) & T3 & b3 & T4 & _ & _ & Hno)|H]]; [by left|right; right|by right; left].
  assert (seen ch U s') as Hs by (apply seen_reach; by eapply reach_exn).
  assert (∀ x, ¬ active s' x) as Hna. { intros x Hx. apply (Hno x). rewrite <-E. by apply (seen_active ch U Hwf HU). }
  assert (terminated s' = true) as Ht by by apply (terminated_iff ch U Hwf HU).
  split_and!; [done|done| |].
  - intros p c. by apply (terminated_all_destroyed ch U Hwf HU).
  - exists T1, b, T2. split; [done|]. eapply Forall_impl; [exact HT2|]. intros o' Ho. unfold quiets in Ho. by destruct (ob o').
Qed.
Print Assumptions C18_escapes.
(** The constructor of state 5 throws and the outermost state does not handle the exception event. *)
Example C18_example :
  ∃ s s', reach Demo.chart5 Demo.U s ∧ op_ok Demo.chart5 (Demo.p 8) = true ∧ op_allowed Demo.chart5 Demo.U (Demo.p 8) s ∧
    call Demo.chart5 Demo.U (Demo.p 8) s = (Exn 9, s') ∧
    map ob (drop 6 (tr s')) = [OProcess (ev 8); ODispatch (ev 8) [4; 2]; OVisit 3 4 (ev 8); OTransit 3 4 (IState 5);
      OExit 3 4; ODtor 3 4; OThrow 9; OCtorThrow 5 5; OCatch 9; OHandle 2 (ev 50); OVisit 2 3 (ev 50); OResult 2 3 RForward;
      OVisit 1 1 (ev 50); OResult 1 1 RForward; OVisit 0 0 (ev 50); OReact 0 0 2 (ev 50); OResult 0 0 RForward; OUnhandled;
      ODtor 4 2; ODtor 2 3; ODtor 1 1; ODtor 0 0; OReset; ODone].
Proof.
  apply (played_call_exn Demo.chart5 Demo.U [Demo.i]
    [(PCtor 5, Deed [] (Some 9) DDiscard); (PReact 0, Deed [] None DForward)] (Demo.p 8) 9 6). by_eval.
Qed.

(** ** C21: where exception events go *)
(** One search, which starts at the state the exception event is sent to and asks only states outside of it. *)
Theorem C21_outward {W} (ch : chart) (U : user W) s t1 b p xe t2 :
  wf_chart ch = true → user_ok ch U → seen ch U s → tr s = t1 ++ Obs b (OHandle p xe) :: t2 →
  ∃ c ks b' m t3, lives t1 (c, p) ∧ t2 = under (Some xe) (OVisit p c xe :: ks) ++ Obs b' m :: t3 ∧
    (m = OHandled ∨ m = OUnhandled) ∧ OHandled ∉ ks ∧ OUnhandled ∉ ks ∧
    ∀ q c' e, OVisit q c' e ∈ ks → e = xe ∧ within ch c' c.
Proof.
  intros Hwf HU Hs E. destruct (everyx_seen ch U Hwf HU s Hs _ _ _ E) as (c & ks & b' & m & t3 & -> & Hm & Hl & Hk & Hv & _).
  exists c, ks, b', m, t3. rewrite Forall_forall in Hk. split_and!; try done; by intros [? ?]%Hk.
Qed.
Print Assumptions C21_outward.
(** A reaction threw without having started a transition or a termination: the event goes to the innermost
    state that was asked last. *)
Theorem C21_stable {W} (ch : chart) (U : user W) s t1 b p xe t2 :
  wf_chart ch = true → user_ok ch U → seen ch U s → tr s = t1 ++ Obs b (OHandle p xe) :: t2 → in_state t1 →
  ∃ c, lives t1 (c, p) ∧ is_leaf ch c = true ∧ last (leaf_visits ch (map ob t1)) = Some (c, p).
Proof.
  intros Hwf HU Hs E Hi. destruct (everyx_seen ch U Hwf HU s Hs _ _ _ E) as (c & ks & b' & m & t3 & -> & _ & Hl & _ & _ & Hst & _).
  destruct (Hst Hi) as [H _]. exists c. split_and!; [done| |done].
  apply last_Some_elem_of, elem_of_list_omap in H as (k & _ & Hk). destruct k; try done.
  destruct (is_leaf ch c0) eqn:Hlf; [|done]. by injection Hk as -> _.
Qed.
Print Assumptions C21_stable.
(** A transition or termination started by a reaction was aborted: the event goes to the outermost of the
    states that lost an inner state since the transition began. *)
Theorem C21_unstable {W} (ch : chart) (U : user W) s t1 b p xe t2 :
  wf_chart ch = true → user_ok ch U → seen ch U s → tr s = t1 ++ Obs b (OHandle p xe) :: t2 →
  ¬ in_state t1 → md_disp (mode_of t1) ≠ None → ch_relax ch = None →
  ∃ c t0 b0 k t3, lives t1 (c, p) ∧ t1 = t0 ++ Obs b0 k :: t3 ∧ moves k = true ∧ Forall (λ o, moves (ob o) = false) t3 ∧
    outermost_unstable ch t0 t1 (c, p).
Proof.
  intros Hwf HU Hs E Hi Hd Hrel. destruct (everyx_seen ch U Hwf HU s Hs _ _ _ E) as (c & ks & b' & m & t3 & -> & _ & Hl & _ & _ & _ & Hst & _).
  simpl in Hl, Hst. destruct (Hst Hi) as (_ & _ & H). destruct (H Hd Hrel) as (t0 & (b0 & k & T & -> & Hk & HT) & Ho).
  by exists c, t0, b0, k, T.
Qed.
Print Assumptions C21_unstable.
(** terminate() or the initial transition was aborted: the event goes to the outermost of the states that lost
    an inner state since the call began, or, for initiate(), since the machine had been terminated. *)
Theorem C21_outside {W} (ch : chart) (U : user W) s o r s' T T1 b p xe T2 :
  wf_chart ch = true → user_ok ch U → reach ch U s → op_ok ch o = true → op_allowed ch U o s →
  call ch U o s = (r, s') → tr s' = tr s ++ T → T = T1 ++ Obs b (OHandle p xe) :: T2 → md_disp (mode_of (tr s ++ T1)) = None →
  ∃ T0 T0' c, T1 = T0 ++ T0' ∧ (T0 = [] ∨ (∃ n, o = OpInitiate n) ∧ ∀ x, ¬ lives (tr s ++ T0) x) ∧
    (o = OpTerminate ∨ ∃ n, o = OpInitiate n) ∧
    lives (tr s ++ T1) (c, p) ∧ outermost_unstable ch (tr s ++ T0) (tr s ++ T1) (c, p).
Proof. intros Hwf HU. apply (call_places ch U Hwf HU). Qed.
Print Assumptions C21_outside.

(** The constructor of state 7 throws when states 5, 3 and 1 have been left: the outermost state, which has
    lost its inner state, is sent the event; state 2 in the other region is not asked. *)
Example C21_example_unstable :
  tr Demo.demo = take 37 (tr Demo.demo) ++ Obs (Some (ev 50)) (OHandle 0 (ev 50)) :: drop 38 (tr Demo.demo) ∧
  last_mark (map ob (take 37 (tr Demo.demo))) = Some (OTransit 1 1 (IState 7)) ∧
  md_disp (mode_of (take 37 (tr Demo.demo))) = Some (ev 2).
Proof. split_and!; [apply entry; by_compute|by_compute..]. Qed.
(** The constructor of state 5 throws: state 3 is the outermost unstable state, and not the outermost state. *)
Example C21_example_inner :
  ∃ s s', reach Demo.chart5 Demo.U s ∧ op_ok Demo.chart5 (Demo.p 8) = true ∧ op_allowed Demo.chart5 Demo.U (Demo.p 8) s ∧
    call Demo.chart5 Demo.U (Demo.p 8) s = (Exn 9, s') ∧
    map ob (drop 9 (tr s')) = [OTransit 3 4 (IState 5);
      OExit 3 4; ODtor 3 4; OThrow 9; OCtorThrow 5 5; OCatch 9; OHandle 2 (ev 50); OVisit 2 3 (ev 50); OResult 2 3 RForward;
      OVisit 1 1 (ev 50); OResult 1 1 RForward; OVisit 0 0 (ev 50); OReact 0 0 2 (ev 50); OResult 0 0 RForward; OUnhandled;
      ODtor 4 2; ODtor 2 3; ODtor 1 1; ODtor 0 0; OReset; ODone].
Proof.
  apply (played_call_exn Demo.chart5 Demo.U [Demo.i]
    [(PCtor 5, Deed [] (Some 9) DDiscard); (PReact 0, Deed [] None DForward)] (Demo.p 8) 9 9). by_eval.
Qed.
(** An in-state reaction of state 2 throws. *)
Example C21_example_stable :
  ∃ s, reach Demo.chart5 Demo.U s ∧
    map ob (drop 16 (tr s)) = [OVisit 4 2 (ev 4); OInState 4 (ev 4); OThrow 8; OCatch 8; OHandle 4 (ev 50); OVisit 4 2 (ev 50);
      OResult 4 2 RForward; OVisit 0 0 (ev 50); OReact 0 0 2 (ev 50); OResult 0 0 RDiscard; OHandled; ODone].
Proof.
  apply (played_trace Demo.chart5 Demo.U [Demo.i; Demo.p 4] [(PIn 4, Deed [] (Some 8) DDiscard)]). by_eval.
Qed.
(** terminate(): exit() of state 3 throws. *)
Example C21_example_terminate :
  ∃ s s', reach Demo.chart5 Demo.U s ∧ op_ok Demo.chart5 OpTerminate = true ∧ op_allowed Demo.chart5 Demo.U OpTerminate s ∧
    call Demo.chart5 Demo.U OpTerminate s = (Exn 9, s') ∧
    map ob (drop 6 (tr s')) = [OExit 4 2; ODtor 4 2; OExit 3 4; ODtor 3 4; OExit 2 3; OThrow 9; ODtor 2 3; ODtor 1 1; OCatch 9;
      OHandle 0 (ev 50); OVisit 0 0 (ev 50); OReact 0 0 2 (ev 50); OResult 0 0 RForward; OUnhandled; ODtor 0 0; OReset].
Proof.
  apply (played_call_exn Demo.chart5 Demo.U [Demo.i]
    [(PExit 3, Deed [] (Some 9) DDiscard); (PReact 0, Deed [] None DForward)] OpTerminate 9 6). by_eval.
Qed.
(** initiate(): the constructor of state 2 throws. *)
Example C21_example_initiate :
  ∃ s s', reach Demo.chart5 Demo.U s ∧ op_ok Demo.chart5 Demo.i = true ∧ op_allowed Demo.chart5 Demo.U Demo.i s ∧
    call Demo.chart5 Demo.U Demo.i s = (Exn 9, s') ∧
    map ob (drop 0 (tr s')) = [OReset; OCtor 0 0; OCtor 1 1; OCtor 2 3; OCtor 3 4; OThrow 9; OCtorThrow 4 2; OCatch 9;
      OHandle 0 (ev 50); OVisit 0 0 (ev 50); OReact 0 0 2 (ev 50); OResult 0 0 RForward; OUnhandled; ODtor 3 4; ODtor 2 3;
      ODtor 1 1; ODtor 0 0; OReset].
Proof.
  apply (played_call_exn Demo.chart5 Demo.U []
    [(PCtor 2, Deed [] (Some 9) DDiscard); (PReact 0, Deed [] None DForward)] Demo.i 9 0). by_eval.
Qed.

(** ** C22: successful and unsuccessful exception handling *)
(** After an exception is thrown, objects are destroyed until it is caught.  Exceptions thrown by
    unconsumed_event() are not caught, nor are those thrown because there is no memory to defer an event; those thrown
    while an exception event is handled end the handling. *)
Theorem C22_caught {W} (ch : chart) (U : user W) s t1 b y t2 :
  wf_chart ch = true → user_ok ch U → seen ch U s → tr s = t1 ++ Obs b (OThrow y) :: t2 →
  (excepting t1 = false ∧ ∃ t0 e, t1 = t0 ++ under None [ODone; ORefused (ADefer e)]) ∨
  ∃ ks m t3, t2 = ks ++ m :: t3 ∧ Forall (λ o, falling (ob o) = true) ks ∧
    ((ob m = OCatch y ∧ excepting t1 = false) ∨ (ob m = OUnhandled ∧ excepting t1 = true) ∨
     (ob m = ODone ∧ excepting t1 = false ∧ ks = [] ∧ ∃ t0 e kc, t1 = t0 ++ under (Some e) (OUnconsumed e :: kc) ∧ calls kc)).
Proof.
  intros Hwf HU Hs E. destruct (everyx_seen ch U Hwf HU s Hs _ _ _ E) as [[H1 H2]|(ks & m & t3 & -> & H1 & H2)]; [by left|right]. simpl in H2.
  exists ks, m, t3. split_and!; [done|done|]. destruct (ob m); try done; naive_solver.
Qed.
Print Assumptions C22_caught.
(** A caught exception becomes an exception event exactly if the translator knows it and a state is active;
    otherwise the states are destroyed and the machine is cleared. *)
Theorem C22_translated {W} (ch : chart) (U : user W) s t1 b y t2 :
  wf_chart ch = true → user_ok ch U → seen ch U s → tr s = t1 ++ Obs b (OCatch y) :: t2 →
  (∃ t0 b ks, t1 = t0 ++ Obs b (OThrow y) :: ks ∧ Forall (λ o, falling (ob o) = true) ks) ∧ excepting t1 = false ∧
  ((∃ xe p t3, u_translate U y = Some xe ∧ (∃ x, lives t1 x) ∧ t2 = Obs (Some xe) (OHandle p xe) :: t3) ∨
   (u_translate U y = None ∨ ∀ x, ¬ lives t1 x) ∧
     ∃ ks m t3, t2 = ks ++ m :: t3 ∧ Forall (λ o, falling (ob o) = true) ks ∧ ob m = OReset).
Proof. intros Hwf HU Hs E. exact (everyx_seen ch U Hwf HU s Hs _ _ _ E). Qed.
Print Assumptions C22_translated.
(** The exception event is handled exactly if a reaction ended with RDiscard (discarding, transiting or
    terminating), without another exception, and either the machine was stable (the exception was thrown by a
    reaction that had not started to move) or that reaction moved.  Afterwards the machine is stable. *)
Theorem C22_handled {W} (ch : chart) (U : user W) s t1 b p xe t2 :
  wf_chart ch = true → user_ok ch U → seen ch U s → tr s = t1 ++ Obs b (OHandle p xe) :: t2 →
  ∃ ks b' m t3, t2 = under (Some xe) ks ++ Obs b' m :: t3 ∧ (m = OHandled ∨ m = OUnhandled) ∧
    Forall (λ k, still k = true) ks ∧
    (m = OHandled ↔ (∃ q c', last ks = Some (OResult q c' RDiscard)) ∧ (in_state t1 ∨ moved ks)) ∧
    (m = OHandled → nothrow ks ∧ complete ch (t1 ++ under (Some xe) (OHandle p xe :: ks)) ∧
      (md_disp (mode_of t1) ≠ None → ∃ t4, t3 = Obs None ODone :: t4)) ∧
    (m = OUnhandled → ∃ ks m t4, t3 = ks ++ m :: t4 ∧ Forall (λ o, falling (ob o) = true) ks ∧ ob m = OReset).
Proof. intros Hwf HU. exact (handle_outcome ch U Hwf HU s t1 b p xe t2). Qed.
Print Assumptions C22_handled.
(** When a call returns, every exception thrown during it was translated and its event was handled. *)
Theorem C22_returned {W} (ch : chart) (U : user W) s o s' T T1 b y T2 :
  wf_chart ch = true → user_ok ch U → reach ch U s → op_ok ch o = true → op_allowed ch U o s →
  call ch U o s = (Ret tt, s') → tr s' = tr s ++ T → T = T1 ++ Obs b (OThrow y) :: T2 →
  ∃ T0 b0 xe p ks b1 T3, T2 = T0 ++ Obs b0 (OCatch y) :: under (Some xe) (OHandle p xe :: ks) ++ Obs b1 OHandled :: T3 ∧
    Forall (λ o, falling (ob o) = true) T0 ∧ nothrow ks ∧ u_translate U y = Some xe.
Proof. intros Hwf HU Hr H1 H2 H3. by eapply (returned_swallows ch U Hwf HU s o _ s'). Qed.
Print Assumptions C22_returned.

Example C22_example :
  tr Demo.demo = take 34 (tr Demo.demo) ++ Obs (Some (ev 2)) (OThrow 3) :: drop 35 (tr Demo.demo) ∧
  tr Demo.demo = take 36 (tr Demo.demo) ++ Obs (Some (ev 2)) (OCatch 3) :: drop 37 (tr Demo.demo) ∧
  tr Demo.demo = take 37 (tr Demo.demo) ++ Obs (Some (ev 50)) (OHandle 0 (ev 50)) :: drop 38 (tr Demo.demo) ∧
  map ob (take 16 (drop 38 (tr Demo.demo))) = [OVisit 0 0 (ev 50); OReact 0 0 2 (ev 50); OPost (ev 8); OPost (ev 3);
    OTransit 0 0 (IState 2); ODtor 4 2; ODtor 0 0; OAction None 1 (ev 50); OCtor 7 0; OCtor 8 1; OCtor 9 3; OCtor 10 4; OCtor 11 2;
    OResult 0 0 RDiscard; OHandled; ODone].
Proof. split_and!; [apply entry; by_compute..|by_compute]. Qed.
(** An in-state reaction throws; the machine stays stable and discarding the exception event is enough. *)
Example C22_example_stable :
  ∃ s, reach Demo.chart5 Demo.U s ∧
    map ob (drop 16 (tr s)) = [OVisit 4 2 (ev 4); OInState 4 (ev 4); OThrow 8; OCatch 8; OHandle 4 (ev 50); OVisit 4 2 (ev 50);
      OResult 4 2 RForward; OVisit 0 0 (ev 50); OReact 0 0 2 (ev 50); OResult 0 0 RDiscard; OHandled; ODone].
Proof.
  apply (played_trace Demo.chart5 Demo.U [Demo.i; Demo.p 4] [(PIn 4, Deed [] (Some 8) DDiscard)]). by_eval.
Qed.
(** The same exception event, discarded while the machine is unstable, is not enough. *)
Example C22_example_unstable :
  ∃ s s', reach Demo.chart5 Demo.U s ∧ op_ok Demo.chart5 (Demo.p 8) = true ∧ op_allowed Demo.chart5 Demo.U (Demo.p 8) s ∧
    call Demo.chart5 Demo.U (Demo.p 8) s = (Exn 9, s') ∧
    map ob (drop 12 (tr s')) = [OThrow 9; OCtorThrow 5 5; OCatch 9; OHandle 2 (ev 50); OVisit 2 3 (ev 50); OResult 2 3 RForward;
      OVisit 1 1 (ev 50); OResult 1 1 RForward; OVisit 0 0 (ev 50); OReact 0 0 2 (ev 50); OResult 0 0 RDiscard; OUnhandled;
      ODtor 4 2; ODtor 2 3; ODtor 1 1; ODtor 0 0; OReset; ODone].
Proof.
  apply (played_call_exn Demo.chart5 Demo.U [Demo.i] [(PCtor 5, Deed [] (Some 9) DDiscard)] (Demo.p 8) 9 12). by_eval.
Qed.

(** ** C23: no exit() during exception handling *)
(** From the exception until it is handled, or the machine is cleared, or (for unconsumed_event()) the event is
    left, no exit() is called; an exception thrown because an event cannot be deferred leaves the call at once ... *)
Theorem C23_no_exit {W} (ch : chart) (U : user W) s t1 b y t2 :
  wf_chart ch = true → user_ok ch U → seen ch U s → tr s = t1 ++ Obs b (OThrow y) :: t2 →
  (∃ t0 e, t1 = t0 ++ under None [ODone; ORefused (ADefer e)]) ∨
  ∃ T1 b' k T2, t2 = T1 ++ Obs b' k :: T2 ∧ (k = OHandled ∨ k = OReset ∨ k = ODone) ∧
    Forall (λ o, ∀ p c, ob o ≠ OExit p c) T1.
Proof.
  intros Hwf HU Hs E. destruct (throw_settles ch U Hwf HU s t1 b y t2 Hs E) as [Hu|(T1 & b' & k & T2 & -> & Hk & H)]; [by left|right].
  exists T1, b', k, T2. split; [done|]. split; [destruct k; auto; done|]. eapply Forall_impl; [exact H|].
  intros o Ho p c Eo. cbn in Ho. by rewrite Eo in Ho.
Qed.
Print Assumptions C23_no_exit.
(** ... and no history is recorded: what can be recalled afterwards could be recalled before. *)
Theorem C23_history {W} (ch : chart) (U : user W) s t1 b y T T' r h :
  wf_chart ch = true → user_ok ch U → seen ch U s → tr s = t1 ++ Obs b (OThrow y) :: T ++ T' →
  Forall (λ o, ∀ p c, ob o ≠ OExit p c) T →
  (shallow_memory ch (t1 ++ Obs b (OThrow y) :: T) r h → shallow_memory ch t1 r h) ∧
  (deep_memory ch (t1 ++ Obs b (OThrow y) :: T) r h → deep_memory ch t1 r h).
Proof.
  intros Hwf HU Hs E0 H. assert (no_exits T) as Hn.
  { eapply Forall_impl; [exact H|]. intros o Ho. destruct (ob o) eqn:E; try done. by destruct (Ho p c). }
  assert (Forall (λ o, partial (ob o) = false) T) as Hp by (by eapply (unrecorded ch U Hwf HU)).
  split; [by apply shallow_stays|by apply deep_stays].
Qed.
Print Assumptions C23_history.
(** Between the exception (34) and its handling (52) states 2 and 0 are destroyed without exit(). *)
Example C23_example :
  tr Demo.demo = take 34 (tr Demo.demo) ++ Obs (Some (ev 2)) (OThrow 3) :: drop 35 (tr Demo.demo) ∧
  drop 35 (tr Demo.demo) = take 17 (drop 35 (tr Demo.demo)) ++ Obs (Some (ev 2)) OHandled :: drop 53 (tr Demo.demo) ∧
  forallb (λ o, negb (is_exit (ob o))) (take 17 (drop 35 (tr Demo.demo))) = true ∧
  ODtor 4 2 ∈ map ob (take 17 (drop 35 (tr Demo.demo))) ∧ ODtor 0 0 ∈ map ob (take 17 (drop 35 (tr Demo.demo))).
Proof. split_and!; [apply entry; by_compute|by_compute..]. Qed.

(** ** C24: triggering_event() *)
(** [ob_trig o] is what triggering_event() returns when [o] happens. *)
Theorem C24_trigger {W} (ch : chart) (U : user W) s t1 o t2 :
  wf_chart ch = true → user_ok ch U → seen ch U s → tr s = t1 ++ o :: t2 → ob_trig o = current (t1 ++ [o]).
Proof. intros Hwf HU Hs E. exact (proj1 (proj1 (every_seen ch U Hwf HU s Hs) _ _ _ E)). Qed.
Print Assumptions C24_trigger.
(** It is null after every call. *)
Theorem C24_null {W} (ch : chart) (U : user W) s :
  wf_chart ch = true → user_ok ch U → seen ch U s → trig (en s) = None ∧ current (tr s) = None.
Proof. intros Hwf HU. exact (no_trigger ch U Hwf HU s). Qed.
Print Assumptions C24_null.
Example C24_example :
  ob_trig <$> (tr Demo.demo !! 33) = Some (Some (ev 2)) ∧ ob_trig <$> (tr Demo.demo !! 45) = Some (Some (ev 50)) ∧
  ob_trig <$> (tr Demo.demo !! 3) = Some None ∧ ob_trig <$> (tr Demo.demo !! 58) = Some (Some (ev 8)).
Proof. split_and!; by_compute. Qed.

(** ** C29: in-state reactions, discards and forwards do not change the configuration *)
(** [T] is everything between the start and the end of the dispatching of [e]. *)
Theorem C29_unmoved {W} (ch : chart) (U : user W) s t1 b e ls T t2 :
  wf_chart ch = true → user_ok ch U → seen ch U s →
  tr s = t1 ++ Obs b (ODispatch e ls) :: T ++ Obs None ODone :: t2 → Forall (λ o, ob o ≠ ODone) T →
  Forall (λ o, (∀ y, ob o ≠ OCatch y) ∧ moves (ob o) = false) T →
  Forall (λ o, ∀ p c, ob o ≠ OCtor p c ∧ ob o ≠ OExit p c ∧ ob o ≠ ODtor p c ∧ ob o ≠ OCtorThrow p c) T ∧
  (∀ x, lives (t1 ++ Obs b (ODispatch e ls) :: T) x ↔ lives t1 x) ∧
  order_of ch (t1 ++ Obs b (ODispatch e ls) :: T) = order_of ch t1 ∧
  ∀ q i h, (OClearS q i ∉ map ob T → shallow_memory ch (t1 ++ Obs b (ODispatch e ls) :: T) (Some q, i) h ↔ shallow_memory ch t1 (Some q, i) h) ∧
    (OClearD q i ∉ map ob T → deep_memory ch (t1 ++ Obs b (ODispatch e ls) :: T) (Some q, i) h ↔ deep_memory ch t1 (Some q, i) h).
Proof. intros Hwf HU. exact (unmoved_unchanged ch U Hwf HU s t1 b e ls T t2). Qed.
Print Assumptions C29_unmoved.
(** The event of C12_example_unconsumed: an in-state reaction; and one that is deferred and clears history. *)
Example C29_example :
  tr Demo.demo = take 92 (tr Demo.demo) ++ Obs (Some (ev 7)) (ODispatch (ev 7) [2; 7]) :: take 4 (drop 93 (tr Demo.demo)) ++
    Obs None ODone :: drop 98 (tr Demo.demo) ∧
  forallb (λ o, match ob o with OCatch _ | ODone => false | k => negb (moves k) end) (take 4 (drop 93 (tr Demo.demo))) = true ∧
  map ob (take 4 (drop 93 (tr Demo.demo))) = [OVisit 11 2 (ev 7); OReact 11 2 3 (ev 7); OClearD 1 0; OResult 11 2 RDefer].
Proof. split_and!; by_compute. Qed.
