(** C13-C17, C19: posted, deferred, lost and discarded events. *)
From Verif Require Import Demo Recall.

(** ** C13: posted events are processed first-in first-out, after the current event *)
(** What a call does to the queues: as long as nothing is released and the machine is not cleared, the events
    taken from the queue, followed by those still in it, are those that were in it before, followed by those
    posted during the call. *)
Theorem C13_fifo {W} (ch : chart) (U : user W) s o r s' T :
  wf_chart ch = true → user_ok ch U → reach ch U s → op_ok ch o = true → op_allowed ch U o s →
  call ch U o s = (r, s') → tr s' = tr s ++ T → undisturbed T →
  takes T ++ queue (en s') = queue (en s) ++ posts T.
Proof.
  intros Hwf HU Hr H1 H2 H3 E Hu.
  pose proof (call_seen ch U Hwf HU _ _ _ _ Hr H1 H2 H3) as Hs'.
  destruct (seen_queues ch U Hwf HU _ Hs') as [-> _]. destruct (seen_queues ch U Hwf HU _ (seen_reach _ _ _ Hr)) as [-> _].
  destruct (seen_truthful ch U Hwf HU _ Hs') as [Ht _]. rewrite E in *. by apply (truthful_fifo ch).
Qed.
Print Assumptions C13_fifo.
(** The same between any two moments. *)
Theorem C13_order {W} (ch : chart) (U : user W) s t1 T t2 :
  wf_chart ch = true → user_ok ch U → seen ch U s → tr s = t1 ++ T ++ t2 → undisturbed T →
  takes T ++ pending (t1 ++ T) = pending t1 ++ posts T ∧ queue (en s) = pending (tr s).
Proof.
  intros Hwf HU Hs E Hu. split; [|apply (seen_queues ch U Hwf HU _ Hs)].
  destruct (seen_truthful ch U Hwf HU _ Hs) as [Ht _]. rewrite E, app_assoc in Ht. apply truthful_pre in Ht. by eapply truthful_fifo.
Qed.
Print Assumptions C13_order.
(** An event is dispatched when it is taken from the queue or handed to process_event(), and before its
    processing is finished no other event is taken, accepted or dispatched. *)
Theorem C13_after_current {W} (ch : chart) (U : user W) s t1 b k t2 :
  wf_chart ch = true → user_ok ch U → seen ch U s → tr s = t1 ++ Obs b k :: t2 →
  match k with
  | OTake e | OProcess e => ∃ ls t3, t2 = Obs (Some e) (ODispatch e ls) :: t3
  | ODispatch e ls =>
      (∃ t0 b0 k0, t1 = t0 ++ [Obs b0 k0] ∧ (k0 = OTake e ∨ k0 = OProcess e)) ∧
      ∃ T t3, t2 = T ++ Obs None ODone :: t3 ∧
        Forall (λ o, ∀ e' ls', ob o ≠ OTake e' ∧ ob o ≠ OProcess e' ∧ ob o ≠ ODispatch e' ls') T
  | _ => True
  end.
Proof.
  intros Hwf HU Hs E. destruct (kept_seen ch U Hwf HU s Hs) as [[Hp _] _]. specialize (Hp _ _ _ E). simpl in Hp.
  destruct k; try done; simpl in Hp.
  destruct Hp as [H1 (T & t3 & -> & H2 & _)]. split; [done|]. exists T, t3. split; [done|].
  eapply Forall_impl; [exact H2|]. intros [b' k'] Hk e' ls'. by destruct k'.
Qed.
Print Assumptions C13_after_current.
(** Two events are posted while an exception is handled; they are processed afterwards, in this order. *)
Example C13_example : ∃ s s' T, reach Demo.chart5 Demo.U s ∧ op_ok Demo.chart5 (Demo.p 2) = true ∧ op_allowed Demo.chart5 Demo.U (Demo.p 2) s ∧
  call Demo.chart5 Demo.U (Demo.p 2) s = (Ret tt, s') ∧ tr s' = tr s ++ T ∧ undisturbed T ∧
  posts T = [ev 8; ev 3] ∧ takes T = [ev 8; ev 3] ∧ dispatches T = [ev 2; ev 8; ev 3].
Proof.
  destruct (played Demo.chart5 Demo.U [Demo.i; Demo.p 8] Demo.script1
    (λ s, match call Demo.chart5 Demo.U (Demo.p 2) s with
          | (Ret _, s') => let T := drop (length (tr s)) (tr s') in
              bool_decide (tr s' = tr s ++ T) && bool_decide (Forall (λ o, ob o ≠ ORelease ∧ ob o ≠ OReset) T) &&
              bool_decide (posts T = [ev 8; ev 3]) && bool_decide (takes T = [ev 8; ev 3]) &&
              bool_decide (dispatches T = [ev 2; ev 8; ev 3])
          | _ => false end)) as (s & Hs & H); [by_eval|].
  destruct (call Demo.chart5 Demo.U (Demo.p 2) s) as [[[]|y|f|] s'] eqn:E; try done.
  apply andb_true_iff in H as [[[[H1 H2]%andb_true_iff H3]%andb_true_iff H4]%andb_true_iff H5].
  apply bool_decide_eq_true in H1, H2, H3, H4, H5.
  by exists s, s', (drop (length (tr s)) (tr s')).
Qed.

(** ** C14: process_event() and initiate() drain the queue *)
Theorem C14_drained {W} (ch : chart) (U : user W) s o s' :
  wf_chart ch = true → user_ok ch U → reach ch U s → op_ok ch o = true → op_allowed ch U o s →
  (∃ n, o = OpInitiate n) ∨ (∃ n e, o = OpProcess n e) → call ch U o s = (Ret tt, s') →
  queue (en s') = [] ∧ pending (tr s') = [].
Proof.
  intros Hwf HU Hr H1 H2 H3 H4. pose proof (call_drains ch U s o s' H3 H4) as Hq. split; [done|].
  rewrite <-Hq. symmetry. apply (seen_queues ch U Hwf HU). apply seen_reach. by eapply reach_ret.
Qed.
Print Assumptions C14_drained.
(** Events posted by the client wait for the next process_event(); this one ends with another one deferred. *)
Example C14_example : ∃ s s', reach Demo.chart5 Demo.U s ∧ queue (en s) = [ev 8; ev 3] ∧
  call Demo.chart5 Demo.U (Demo.p 4) s = (Ret tt, s') ∧ queue (en s') = [] ∧ deferred (en s') = [ev 3].
Proof.
  destruct (played Demo.chart5 Demo.U [Demo.i; OpPost (ev 8); OpPost (ev 3)] []
    (λ s, bool_decide (queue (en s) = [ev 8; ev 3]) && match call Demo.chart5 Demo.U (Demo.p 4) s with
          | (Ret _, s') => bool_decide (queue (en s') = []) && bool_decide (deferred (en s') = [ev 3])
          | _ => false end)) as (s & Hs & H); [by_eval|].
  apply andb_true_iff in H as [H0 H]. destruct (call Demo.chart5 Demo.U (Demo.p 4) s) as [[[]|y|f|] s'] eqn:E; try done.
  apply andb_true_iff in H as [H1 H2]. apply bool_decide_eq_true in H0, H1, H2. by exists s, s'.
Qed.

(** ** C15: deferred events wait and come back in order, before posted events *)
(** An event goes to the deferred events exactly when its processing ends with a reaction deferring it, unless the
    allocator that is then asked for memory throws. *)
Theorem C15_deferred {W} (ch : chart) (U : user W) s t1 b k t2 :
  wf_chart ch = true → user_ok ch U → seen ch U s → tr s = t1 ++ Obs b k :: t2 →
  match k with
  | ODispatch e ls => ∃ T t3, t2 = T ++ Obs None ODone :: t3 ∧ Forall (λ o, ob o ≠ ODone) T ∧
      ((∃ T0 b' p c, T = T0 ++ [Obs b' (OResult p c RDefer)]) →
        (∃ t4, t3 = Obs None (ODefer e) :: t4) ∨ ∃ y t4, t3 = under None [ORefused (ADefer e); OThrow y] ++ t4)
  | ODefer e | ORefused (ADefer e) => ∃ t0 ls T0 b' p c, t1 = t0 ++ Obs (Some e) (ODispatch e ls) :: T0 ++ [Obs b' (OResult p c RDefer); Obs None ODone] ∧
      Forall (λ o, ob o ≠ ODone) T0
  | _ => True
  end.
Proof.
  intros Hwf HU Hs E. destruct (kept_seen ch U Hwf HU s Hs) as [[Hp _] _]. specialize (Hp _ _ _ E). simpl in Hp.
  assert (∀ T, Forall (λ o, enclosed (ob o) = true) T → Forall (λ o, ob o ≠ ODone) T) as Hen.
  { intros T HT. eapply Forall_impl; [exact HT|]. by intros [? []]. }
  destruct k; try done; simpl in Hp.
  - destruct a as [c|c|c|e]; try done. destruct Hp as [(t0 & ls & T1 & -> & H2 & T0 & b' & p & c & ->) _]. exists t0, ls, T0, b', p, c.
    split; [by rewrite <-app_assoc|]. apply Forall_app in H2 as [H2 _]. by apply Hen.
  - destruct Hp as [_ (T & t3 & -> & H2 & H3)]. exists T, t3. split; [done|]. split; [by apply Hen|].
    intros H4. destruct (H3 H4) as (T3 & [->|[y ->]]); [left; by eexists|right; by eexists _, _].
  - destruct Hp as (t0 & ls & T1 & -> & H2 & T0 & b' & p & c & ->). exists t0, ls, T0, b', p, c.
    split; [by rewrite <-app_assoc|]. apply Forall_app in H2 as [H2 _]. by apply Hen.
Qed.
Print Assumptions C15_deferred.
(** Until something is released the deferred events stay, in order. *)
Theorem C15_wait {W} (ch : chart) (U : user W) s o r s' T :
  wf_chart ch = true → user_ok ch U → reach ch U s → op_ok ch o = true → op_allowed ch U o s →
  call ch U o s = (r, s') → tr s' = tr s ++ T → undisturbed T →
  deferred (en s') = deferred (en s) ++ deferrals T.
Proof.
  intros Hwf HU Hr H1 H2 H3 E Hu.
  pose proof (call_seen ch U Hwf HU _ _ _ _ Hr H1 H2 H3) as Hs'.
  destruct (seen_queues ch U Hwf HU _ Hs') as [_ ->]. destruct (seen_queues ch U Hwf HU _ (seen_reach _ _ _ Hr)) as [_ ->].
  destruct (seen_truthful ch U Hwf HU _ Hs') as [Ht _]. rewrite E in *. by apply (truthful_fifo ch).
Qed.
Print Assumptions C15_wait.
(** They are released exactly when an object that deferred an event has been destructed. *)
Theorem C15_released {W} (ch : chart) (U : user W) s t1 b k t2 :
  wf_chart ch = true → user_ok ch U → seen ch U s → tr s = t1 ++ Obs b k :: t2 →
  match k with
  | ODtor p c => OResult p c RDefer ∈ map ob t1 →
      ∃ u b' t3, t2 = u ++ Obs b' ORelease :: t3 ∧ Forall (λ o, user_call (ob o) = true) u
  | ORelease => ∃ t0 b' p c u, t1 = t0 ++ Obs b' (ODtor p c) :: u ∧ Forall (λ o, user_call (ob o) = true) u ∧
      OResult p c RDefer ∈ map ob t0
  | _ => True
  end.
Proof.
  intros Hwf HU Hs E. destruct (seen_truthful ch U Hwf HU _ Hs) as [Ht Hr]. destruct k; try done.
  - intros Hp. by eapply (Hr t1 b p c t2 E).
  - exact (Ht _ _ _ _ E).
Qed.
Print Assumptions C15_released.
(** When [t1] ends, [waiting t1] are the deferred events.  After the release they are taken first, in order, then
    those that were in the queue, then those posted since. *)
Theorem C15_front {W} (ch : chart) (U : user W) s t0 T0 b T t2 :
  wf_chart ch = true → user_ok ch U → seen ch U s → tr s = t0 ++ T0 ++ Obs b ORelease :: T ++ t2 → undisturbed T0 → undisturbed T →
  takes T ++ pending (t0 ++ T0 ++ Obs b ORelease :: T) = (waiting t0 ++ deferrals T0) ++ pending (t0 ++ T0) ++ posts T ∧
  waiting (t0 ++ T0 ++ Obs b ORelease :: T) = deferrals T ∧
  queue (en s) = pending (tr s) ∧ deferred (en s) = waiting (tr s).
Proof.
  intros Hwf HU Hs E Hu0 Hu. split_and!; [| |apply (seen_queues ch U Hwf HU _ Hs)..];
    destruct (seen_truthful ch U Hwf HU _ Hs) as [Ht _]; rewrite E in Ht;
    (assert (t0 ++ T0 ++ Obs b ORelease :: T ++ t2 = (t0 ++ T0 ++ Obs b ORelease :: T) ++ t2) as E2
      by (by repeat (rewrite <-?app_assoc; simpl))); rewrite E2 in Ht; apply truthful_pre in Ht;
    (assert (t0 ++ T0 ++ Obs b ORelease :: T = ((t0 ++ T0) ++ [Obs b ORelease]) ++ T) as E3
      by (by repeat (rewrite <-?app_assoc; simpl))); rewrite E3 in *; destruct (truthful_fifo _ _ _ Ht Hu) as [H1 H2];
    apply truthful_pre in Ht; apply truthful_pre in Ht; destruct (truthful_fifo _ _ _ Ht Hu0) as [H3 H4].
  - rewrite H1. unfold pending, waiting in *. rewrite queues_snoc. simpl. by rewrite H4, <-!app_assoc.
  - rewrite H2. unfold waiting. by rewrite queues_snoc.
Qed.
Print Assumptions C15_front.
(** State 2 deferred two events and there is a posted one; state 2 is left, and the deferred events come first.
    (Here the destruction is caused by the outermost state's transition to another outermost state.) *)
Example C15_example : ∃ s s' T, reach Demo.chart5 Demo.U s ∧ deferred (en s) = [ev 3; ev 7] ∧
  call Demo.chart5 Demo.U (Demo.p 0) s = (Ret tt, s') ∧ tr s' = tr s ++ T ∧
  omap (λ o, match ob o with OPost _ | ODtor _ 2 | ORelease | OTake _ => Some (ob o) | _ => None end) T =
    [OPost (ev 33); ODtor 11 2; ORelease; OTake (ev 3); OTake (ev 7); OTake (ev 33)].
Proof.
  destruct (played Demo.chart5 Demo.U Demo.calls1 (Demo.script1 ++ [(PExit 2, Deed [CPost (ev 33)] None DDiscard)])
    (λ s, bool_decide (deferred (en s) = [ev 3; ev 7]) && match call Demo.chart5 Demo.U (Demo.p 0) s with
          | (Ret _, s') => let T := drop (length (tr s)) (tr s') in bool_decide (tr s' = tr s ++ T) &&
              bool_decide (omap (λ o, match ob o with OPost _ | ODtor _ 2 | ORelease | OTake _ => Some (ob o) | _ => None end) T =
                [OPost (ev 33); ODtor 11 2; ORelease; OTake (ev 3); OTake (ev 7); OTake (ev 33)])
          | _ => false end)) as (s & Hs & H); [by_eval|].
  apply andb_true_iff in H as [H0 H]. destruct (call Demo.chart5 Demo.U (Demo.p 0) s) as [[[]|y|f|] s'] eqn:E; try done.
  apply andb_true_iff in H as [H1 H2]. apply bool_decide_eq_true in H0, H1, H2. by exists s, s', (drop (length (tr s)) (tr s')).
Qed.

(** ** C16: no event is lost or duplicated *)
(** Since the machine was last cleared: every event received was finished, or is in the queue, or is deferred, or
    there was no memory to defer it. *)
Theorem C16_accounted {W} (ch : chart) (U : user W) s :
  wf_chart ch = true → user_ok ch U → seen ch U s →
  received (tr s) ≡ₚ lost (tr s) ++ finished (tr s) ++ queue (en s) ++ deferred (en s).
Proof.
  intros Hwf HU Hs. destruct (kept_seen ch U Hwf HU s Hs) as [_ [_ H]]. destruct (seen_queues ch U Hwf HU _ Hs) as [-> ->]. exact H.
Qed.
Print Assumptions C16_accounted.
(** What is received are the events posted and handed to process_event(); what is lost are those that were to be
    deferred when the allocator threw; and every event that leaves the queue or the hands of the client is
    dispatched. *)
Theorem C16_received {W} (ch : chart) (U : user W) s t T :
  wf_chart ch = true → user_ok ch U → seen ch U s → tr s = t ++ T → t = [] ∨ (∃ t0 b, t = t0 ++ [Obs b OReset]) → OReset ∉ map ob T →
  received (tr s) = omap_ob (λ k, match k with OPost e | OProcess e => Some e | _ => None end) T ∧
  lost (tr s) = omap_ob (λ k, match k with ORefused (ADefer e) => Some e | _ => None end) T ∧
  arrivals (tr s) = dispatches (tr s).
Proof.
  intros Hwf HU Hs E Ht HT. split_and!; [..|apply (kept_seen ch U Hwf HU s Hs)]; rewrite E; [by apply received_plain|by apply lost_plain].
Qed.
Print Assumptions C16_received.
Example C16_example :
  received (tr Demo.demo) = [ev 8; ev 2; ev 8; ev 3; ev 2; ev 7; ev 2] ∧ finished (tr Demo.demo) = [ev 8; ev 2; ev 8; ev 2; ev 2] ∧
  lost (tr Demo.demo) = [] ∧   queue (en Demo.demo) = [] ∧ deferred (en Demo.demo) = [ev 3; ev 7].
Proof. split_and!; by_compute. Qed.

(** ** C17: terminate() and escaping exceptions discard all events and history *)
(** terminate(), if no exception is thrown. *)
Theorem C17_terminate {W} (ch : chart) (U : user W) s s' T :
  wf_chart ch = true → user_ok ch U → reach ch U s → call ch U OpTerminate s = (Ret tt, s') → tr s' = tr s ++ T →
  (∀ y, OThrow y ∉ map ob T) →
  terminated s' = true ∧ (∀ x, ¬ active s' x) ∧ queue (en s') = [] ∧ deferred (en s') = [] ∧
  (∀ r h, shallow_map (en s') !! r ≠ Some (Some h)) ∧ (∀ r h, deep_map (en s') !! r ≠ Some (Some h)).
Proof. intros Hwf HU. exact (terminate_cleared ch U Hwf HU s s' T). Qed.
Print Assumptions C17_terminate.
(** A call that throws, if the exception was not thrown by unconsumed_event() and not because an event could not be
    deferred. *)
Theorem C17_escape {W} (ch : chart) (U : user W) s o y s' T :
  wf_chart ch = true → user_ok ch U → reach ch U s → op_ok ch o = true → op_allowed ch U o s → call ch U o s = (Exn y, s') →
  tr s' = tr s ++ T →
  (∃ T0 e kc, T = T0 ++ under (Some e) (OUnconsumed e :: kc ++ [OThrow y]) ++ under None [ODone] ∧ calls kc) ∨
  (∃ T0 e, T = T0 ++ under None [ODone; ORefused (ADefer e); OThrow y]) ∨
  terminated s' = true ∧ (∀ x, ¬ active s' x) ∧ queue (en s') = [] ∧ deferred (en s') = [] ∧
  (∀ r h, shallow_map (en s') !! r ≠ Some (Some h)) ∧ (∀ r h, deep_map (en s') !! r ≠ Some (Some h)).
Proof. intros Hwf HU. exact (escape_cleared ch U Hwf HU s o y s' T). Qed.
Print Assumptions C17_escape.
(** A machine with deferred events and recorded history. *)
Lemma called_quiet {W} (ch : chart) (U : user W) o s :
  match call ch U o s with
  | (Ret _, s') => bool_decide (tr s' = tr s ++ drop (length (tr s)) (tr s')) &&
      forallb (λ o, negb (is_throw (ob o))) (drop (length (tr s)) (tr s'))
  | _ => false end = true →
  ∃ s' T, call ch U o s = (Ret tt, s') ∧ tr s' = tr s ++ T ∧ ∀ y, OThrow y ∉ map ob T.
Proof.
  destruct (call ch U o s) as [[[]|y|f|] s'] eqn:Ec; try done. intros [H2 H3]%andb_true_iff. apply bool_decide_eq_true in H2.
  eexists _, _. split; [done|]. split; [exact H2|].
  intros y [o' [E Ho]]%elem_of_list_fmap. rewrite forallb_forall in H3. apply elem_of_list_In in Ho. specialize (H3 o' Ho). by rewrite <-E in H3.
Qed.
Example C17_example :
  (reach Demo.chart5 Demo.U Demo.demo ∧ deferred (en Demo.demo) = [ev 3; ev 7] ∧
   shallow_map (en Demo.demo) !! (Some 0, 0) = Some (Some 7)) ∧
  ∃ s' T, call Demo.chart5 Demo.U OpTerminate Demo.demo = (Ret tt, s') ∧ tr s' = tr Demo.demo ++ T ∧ ∀ y, OThrow y ∉ map ob T.
Proof.
  split; [split_and!; [apply Demo.demo_reach|by_compute|by_compute]|]. apply called_quiet. by_eval.
Qed.

(** ** C19: a throwing unconsumed_event loses nothing *)
(** The exception reaches the caller, nothing happens after it, the active states are those there were before
    unconsumed_event() was called, and so are the events; those posted by unconsumed_event() itself are added. *)
Theorem C19_unconsumed {W} (ch : chart) (U : user W) s o r s' T T1 b e kc y T2 :
  wf_chart ch = true → user_ok ch U → reach ch U s → op_ok ch o = true → op_allowed ch U o s → call ch U o s = (r, s') →
  tr s' = tr s ++ T → T = T1 ++ under b (OUnconsumed e :: kc ++ [OThrow y]) ++ T2 →
  Forall (λ k, user_call k = true) kc →
  r = Exn y ∧ T2 = [Obs None ODone] ∧
  (∀ x, active s' x ↔ lives (tr s ++ T1) x) ∧
  queue (en s') = pending (tr s ++ T1) ++ posts (under b kc) ∧ deferred (en s') = waiting (tr s ++ T1).
Proof.
  intros Hwf HU Hr H1 H2 H3 E. eapply (unconsumed_throw ch U Hwf HU); try done. by eapply (call_seen ch U Hwf HU).
Qed.
Print Assumptions C19_unconsumed.
(** unconsumed_event() posts an event and throws while another one is waiting in the queue. *)
Example C19_example : ∃ s s', reach Demo.chart5 Demo.U s ∧ op_ok Demo.chart5 (Demo.p 33) = true ∧ op_allowed Demo.chart5 Demo.U (Demo.p 33) s ∧
  call Demo.chart5 Demo.U (Demo.p 33) s = (Exn 6, s') ∧
  map ob (drop 17 (tr s')) = [OVisit 4 2 (ev 33); OResult 4 2 RForward; OVisit 0 0 (ev 33); OResult 0 0 RForward; OUnconsumed (ev 33); OPost (ev 4); OThrow 6; ODone].
Proof.
  apply (played_call_exn Demo.chart5 Demo.U [Demo.i; OpPost (ev 8)] [(PUnc, Deed [CPost (ev 4)] (Some 6) DDiscard)] (Demo.p 33) 6 17). by_eval.
Qed.

(** ** C31 and C45: terminate() when an exception is thrown and handled *)
(** An exception event that is handled during terminate() may enter a state: terminate() returns and the machine
    is running; events that were waiting are still waiting.  Here exit() of state 4 throws and the outermost state
    handles the exception event with a transition. *)
Theorem C45_running_refuted : ∃ s s' : mst script heapst, wf_chart Demo.chart5 = true ∧ user_ok Demo.chart5 Demo.U ∧
  reach Demo.chart5 Demo.U s ∧ call Demo.chart5 Demo.U OpTerminate s = (Ret tt, s') ∧ terminated s' = false ∧ queue (en s') = [ev 4].
Proof.
  destruct (played Demo.chart5 Demo.U [Demo.i; OpPost (ev 4)]
    [(PExit 4, Deed [] (Some 3) DDiscard); (PReact 0, Deed [] None (DTransit (IState 2) (Some 1)))]
    (λ s, match call Demo.chart5 Demo.U OpTerminate s with
          | (Ret _, s') => negb (terminated s') && bool_decide (queue (en s') = [ev 4]) | _ => false end)) as (s & Hs & H); [by_eval|].
  destruct (call Demo.chart5 Demo.U OpTerminate s) as [[[]|y|f|] s'] eqn:E; try done. apply andb_true_iff in H as [H1 H2].
  apply bool_decide_eq_true in H2. exists s, s'. split_and!; [apply Demo.chart5_wf|apply Demo.U_ok|done|done|by destruct (terminated s')|done].
Qed.
Print Assumptions C45_running_refuted.
(** The same if the handler terminates the outermost state: the machine is terminated, but nothing is discarded. *)
Theorem C45_kept_refuted : ∃ s s' : mst script heapst, wf_chart Demo.chart5 = true ∧ user_ok Demo.chart5 Demo.U ∧
  reach Demo.chart5 Demo.U s ∧ call Demo.chart5 Demo.U OpTerminate s = (Ret tt, s') ∧ terminated s' = true ∧ queue (en s') = [ev 4].
Proof.
  destruct (played Demo.chart5 Demo.U [Demo.i; OpPost (ev 4)]
    [(PExit 4, Deed [] (Some 3) DDiscard); (PReact 0, Deed [] None DTerminate)]
    (λ s, match call Demo.chart5 Demo.U OpTerminate s with
          | (Ret _, s') => terminated s' && bool_decide (queue (en s') = [ev 4]) | _ => false end)) as (s & Hs & H); [by_eval|].
  destruct (call Demo.chart5 Demo.U OpTerminate s) as [[[]|y|f|] s'] eqn:E; try done. apply andb_true_iff in H as [H1 H2].
  apply bool_decide_eq_true in H2. exists s, s'. split_and!; [apply Demo.chart5_wf|apply Demo.U_ok|done..].
Qed.
Print Assumptions C45_kept_refuted.
(** Nothing else can happen: terminate() leaves anything behind only if an exception was thrown, translated and
    handled, and then it returns; it does not discard anything then. *)
Theorem C45_exact_partial {W} (ch : chart) (U : user W) s r s' T :
  wf_chart ch = true → user_ok ch U → reach ch U s → call ch U OpTerminate s = (r, s') → tr s' = tr s ++ T →
  (r = Ret tt ∧ OReset ∉ map ob T ∧ (∃ T', T = T' ++ under None [OHandled]) ∧
    ∃ y xe, OThrow y ∈ map ob T ∧ u_translate U y = Some xe) ∨
  (∃ T', T = T' ++ under None [OReset]) ∧ terminated s' = true ∧ (∀ x, ¬ active s' x) ∧ queue (en s') = [] ∧
  deferred (en s') = [] ∧ (∀ r h, shallow_map (en s') !! r ≠ Some (Some h)) ∧ (∀ r h, deep_map (en s') !! r ≠ Some (Some h)).
Proof. intros Hwf HU. exact (terminate_cases ch U Hwf HU s r s' T). Qed.
Print Assumptions C45_exact_partial.
(** With a translator that translates nothing, as null_exception_translator, terminate() always terminates. *)
Theorem C45_untranslated_partial {W} (ch : chart) (U : user W) s r s' :
  wf_chart ch = true → user_ok ch U → (∀ y, u_translate U y = None) → reach ch U s → call ch U OpTerminate s = (r, s') →
  terminated s' = true ∧ (∀ x, ¬ active s' x) ∧ queue (en s') = [] ∧
  deferred (en s') = [] ∧ (∀ r h, shallow_map (en s') !! r ≠ Some (Some h)) ∧ (∀ r h, deep_map (en s') !! r ≠ Some (Some h)).
Proof.
  intros Hwf HU Hn Hr Hc. destruct (story_call ch U Hwf HU s OpTerminate r s' Hr eq_refl I Hc) as (T & _ & _ & E & _).
  destruct (terminate_cases ch U Hwf HU s r s' T Hr Hc E) as [(_ & _ & _ & y & xe & _ & H)|[_ H]]; [|done]. by rewrite Hn in H.
Qed.
Print Assumptions C45_untranslated_partial.
(** exit() of state 4 throws while an event is waiting: the exception leaves terminate(). *)
Example C45_example :
  let U0 := scripted Demo.chart5 (λ _, None) in
  ∃ s s', reach Demo.chart5 U0 s ∧ op_ok Demo.chart5 OpTerminate = true ∧ op_allowed Demo.chart5 U0 OpTerminate s ∧
  call Demo.chart5 U0 OpTerminate s = (Exn 3, s') ∧ map ob (drop 6 (tr s')) = [OPost (ev 4); OExit 4 2; ODtor 4 2; OExit 3 4; OThrow 3; ODtor 3 4; ODtor 2 3;
    ODtor 1 1; OCatch 3; ODtor 0 0; OReset].
Proof.
  apply (played_call_exn Demo.chart5 (scripted Demo.chart5 (λ _, None)) [Demo.i; OpPost (ev 4)] [(PExit 4, Deed [] (Some 3) DDiscard)] OpTerminate 3 6). by_eval.
Qed.
(** initiate() starts with terminate(); if that leaves the machine running, a second outermost state is entered
    and two objects of the same state are active. *)
Theorem C31_refuted : ∃ s s' : mst script heapst, ∃ p p', wf_chart Demo.chart5 = true ∧ user_ok Demo.chart5 Demo.U ∧
  reach Demo.chart5 Demo.U s ∧ op_ok Demo.chart5 (OpInitiate 10) = true ∧ call Demo.chart5 Demo.U (OpInitiate 10) s = (Ret tt, s') ∧
  parent Demo.chart5 0 = None ∧ p ≠ p' ∧ active s' (0, p) ∧ active s' (0, p').
Proof.
  destruct (played Demo.chart5 Demo.U [Demo.i]
    [(PExit 4, Deed [] (Some 3) DDiscard); (PReact 0, Deed [] None (DTransit (IState 2) (Some 1)))]
    (λ s, match call Demo.chart5 Demo.U (OpInitiate 10) s with
          | (Ret _, s') => bool_decide (o_cls <$> heap (core s') !! 5 = Some 0) && bool_decide (o_cls <$> heap (core s') !! 10 = Some 0)
          | _ => false end)) as (s & Hs & H); [by_eval|].
  destruct (call Demo.chart5 Demo.U (OpInitiate 10) s) as [[[]|y|f|] s'] eqn:E; try done. apply andb_true_iff in H as [H1 H2].
  apply bool_decide_eq_true in H1, H2. apply fmap_Some in H1 as (o1 & H1 & E1), H2 as (o2 & H2 & E2).
  exists s, s', 5, 10. split_and!; [apply Demo.chart5_wf|apply Demo.U_ok|done|done|done|done|done|by exists o1|by exists o2].
Qed.
Print Assumptions C31_refuted.
(** If no exception is thrown while it terminates the machine, initiate() finds an empty configuration. *)
Theorem C31_quiet_partial {W} (ch : chart) (U : user W) s s1 T n r s' :
  wf_chart ch = true → user_ok ch U → reach ch U s → call ch U OpTerminate s = (Ret tt, s1) → tr s1 = tr s ++ T →
  (∀ y, OThrow y ∉ map ob T) → call ch U (OpInitiate n) s = (r, s') →
  (∀ x, ¬ active s1 x) ∧ op_allowed ch U (OpInitiate n) s ∧
  ∀ x y, active s' x → active s' y → parent ch x.1 = None → parent ch y.1 = None → x = y.
Proof.
  intros Hwf HU Hr H1 E Hn H2. destruct (terminate_cleared ch U Hwf HU s s1 T Hr H1 E Hn) as (Ht & Hna & _).
  assert (op_allowed ch U (OpInitiate n) s) as Ha by (intros s2 E2; change (terminate ch U s) with (call ch U OpTerminate s) in E2; rewrite H1 in E2; by injection E2 as <-).
  split; [done|]. split; [done|]. intros x y Hx Hy Px Py.
  eapply (seen_region ch U Hwf HU s'); [|done|done|unfold region; by rewrite Px, Py, !(pos_top ch Hwf)].
  by eapply (call_seen ch U Hwf HU s (OpInitiate n)).
Qed.
Print Assumptions C31_quiet_partial.
(** If the translator translates nothing, it always does. *)
Theorem C31_untranslated_partial {W} (ch : chart) (U : user W) s n r s' :
  wf_chart ch = true → user_ok ch U → (∀ y, u_translate U y = None) → reach ch U s → call ch U (OpInitiate n) s = (r, s') →
  op_allowed ch U (OpInitiate n) s ∧
  ∀ x y, active s' x → active s' y → parent ch x.1 = None → parent ch y.1 = None → x = y.
Proof.
  intros Hwf HU Hn Hr H2.
  assert (op_allowed ch U (OpInitiate n) s) as Ha.
  { intros s2 E2. change (terminate ch U s) with (call ch U OpTerminate s) in E2. by eapply (C45_untranslated_partial ch U). }
  split; [done|]. intros x y Hx Hy Px Py.
  eapply (seen_region ch U Hwf HU s'); [|done|done|unfold region; by rewrite Px, Py, !(pos_top ch Hwf)].
  by eapply (call_seen ch U Hwf HU s (OpInitiate n)).
Qed.
Print Assumptions C31_untranslated_partial.
(** initiate() is called on the running machine, and entering state 2 throws. *)
Example C31_untranslated_example :
  let U0 := scripted Demo.chart5 (λ _, None) in
  ∃ s s', reach Demo.chart5 U0 s ∧ op_ok Demo.chart5 (OpInitiate 10) = true ∧ op_allowed Demo.chart5 U0 (OpInitiate 10) s ∧
  call Demo.chart5 U0 (OpInitiate 10) s = (Exn 3, s') ∧ map ob (drop 6 (tr s')) = [OPost (ev 4); OExit 4 2; ODtor 4 2; OExit 3 4; ODtor 3 4; OExit 2 3; ODtor 2 3;
    OExit 1 1; ODtor 1 1; OExit 0 0; ODtor 0 0; OReset; OCtor 5 0; OCtor 6 1; OCtor 7 3; OCtor 8 4; OThrow 3;
    OCtorThrow 9 2; OCatch 3; ODtor 8 4; ODtor 7 3; ODtor 6 1; ODtor 5 0; OReset].
Proof.
  apply (played_call_exn Demo.chart5 (scripted Demo.chart5 (λ _, None)) [Demo.i; OpPost (ev 4)] [(PCtor 2, Deed [] None DDiscard); (PCtor 2, Deed [] (Some 3) DDiscard)] (OpInitiate 10) 3 6). by_eval.
Qed.
Example C31_example :
  reach Demo.chart5 Demo.U Demo.demo ∧
  (∃ s1 T, call Demo.chart5 Demo.U OpTerminate Demo.demo = (Ret tt, s1) ∧ tr s1 = tr Demo.demo ++ T ∧ ∀ y, OThrow y ∉ map ob T) ∧
  ∃ s', call Demo.chart5 Demo.U (OpInitiate 10) Demo.demo = (Ret tt, s') ∧ bool_decide (heap_leaves (core s') = [4; 2]) = true.
Proof.
  split; [apply Demo.demo_reach|]. split; [apply (called_quiet Demo.chart5 Demo.U OpTerminate); by_eval|].
  apply (called_ret Demo.chart5 Demo.U (OpInitiate 10) Demo.demo (λ s', bool_decide (heap_leaves (core s') = [4; 2]))). by_eval.
Qed.
