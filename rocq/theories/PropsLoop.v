(** C49: the event loop ends unless user code keeps posting events. *)
From Verif Require Import QueueMono.
From Verif Require Import Demo Recall.

Definition total (t : list obs) : nat := length (pending t) + length (waiting t).

(** The number of events in both queues grows only by events posted and deferred. *)
Lemma total_grows ch t T : truthful ch (t ++ T) →
  total (t ++ T) + length (takes T) ≤ total t + length (posts T) + length (deferrals T).
Proof.
  induction T as [|[b k] T IH] using rev_ind; intros Ht; [rewrite app_nil_r; simpl; lia|].
  rewrite app_assoc in *. specialize (IH (truthful_pre _ _ _ Ht)).
  pose proof (Ht (t ++ T) b k [] eq_refl) as Hk.
  unfold total, pending, waiting, takes, posts, deferrals in *. rewrite !omap_ob_app, !app_length, queues_snoc.
  destruct k; cbn in *; try lia.
  - rewrite app_length. simpl. lia.
  - unfold pending in Hk. destruct (queues (t ++ T)).1 as [|e' q]; [done|]. simpl in *. lia.
  - rewrite app_length. simpl. lia.
  - rewrite app_length. lia.
Qed.

Lemma after_last (t : list obs) d T t0 b' k' u : Forall (λ o, ∀ p c, ob o ≠ ODtor p c) T → (t ++ [d]) ++ T = t0 ++ Obs b' k' :: u →
  d ∈ u ∨ ob d = k' ∨ ∀ p c, k' ≠ ODtor p c.
Proof.
  intros HT. revert u. induction T as [|o T IH] using rev_ind; intros u E.
  - rewrite app_nil_r in E. destruct u as [|o u _] using rev_ind.
    + apply app_inj_tail in E as [_ ->]. auto.
    + rewrite app_comm_cons, app_assoc in E. apply app_inj_tail in E as [_ ->]. left. apply elem_of_app. right. by left.
  - apply Forall_app in HT as [HT Ho]. apply Forall_cons in Ho as [Ho _]. rewrite app_assoc in E.
    destruct u as [|o' u _] using rev_ind.
    + apply app_inj_tail in E as [_ ->]. right. right. done.
    + rewrite app_comm_cons, app_assoc in E. apply app_inj_tail in E as [E ->]. destruct (IH HT u E) as [?|?]; [|by right].
      left. apply elem_of_app. by left.
Qed.

Section loop.
Context {W : Type} (ch : chart) (U : user W).

(** Forwarding and deferring an event moves nothing. *)
Lemma turn_keeps t fe e x ks r : turn ch U t fe e x ks (Done r) → r ≠ RDiscard →
  Forall (λ k, k ≠ OReset ∧ ∀ p c, k ≠ ODtor p c) ks.
Proof.
  intros H Hr.
  assert (∀ d ks' o, effect ch t fe e x d ks' o → o = Done r → ks' = []) as Heff.
  { intros d ks' o He. destruct He; congruence. }
  remember (Done r) as o eqn:Eo. destruct H as [H|i p d act ks o H He|i p ks o H He|i p ks o H He|i p H|i p n ks y H Hc|i p ks v w ks' o H Hc He]; subst.
  - constructor.
  - rewrite (Heff _ _ _ He); [constructor|done].
  - rewrite (Heff _ _ _ He); [constructor|done].
  - rewrite (Heff _ _ _ He); [constructor|done].
  - constructor.
  - destruct y; [done|]. congruence.
  - rewrite (Heff _ _ _ He) by done. rewrite app_nil_r. constructor; [done|].
    eapply Forall_impl; [exact Hc|]. intros [] Hk; try done; by destruct Hk.
Qed.
Lemma search_keeps t fe e x ks r : search ch U t fe e x ks (Done r) → r ≠ RDiscard →
  Forall (λ k, k ≠ OReset ∧ ∀ p c, k ≠ ODtor p c) ks.
Proof.
  intros H Hr. remember (Done r) as o eqn:Eo. induction H as [x ks r' Ht Hne|x ks y Ht|x ks Ht Hp|x ks z ks' o Ht Hp Hl Hs IH]; try done.
  - injection Eo as ->. constructor; [done|]. apply Forall_app. split; [by eapply turn_keeps|]. by constructor.
  - constructor; [done|]. apply Forall_app. split; [by eapply turn_keeps|]. by constructor.
  - constructor; [done|]. apply Forall_app. split; [by eapply turn_keeps|]. constructor; [done|]. by apply IH.
Qed.
Lemma dispatch_keeps e t ls T r : dispatch ch U e t ls T (Done r) → r ≠ RDiscard →
  Forall (λ o, ob o ≠ OReset ∧ ∀ p c, ob o ≠ ODtor p c) T.
Proof.
  intros H Hr. remember (Done r) as o eqn:Eo.
  assert (∀ b ks, Forall (λ k, k ≠ OReset ∧ ∀ p c, k ≠ ODtor p c) ks →
    Forall (λ o, ob o ≠ OReset ∧ ∀ p c, ob o ≠ ODtor p c) (under b ks)) as Hu by (intros; by apply Forall_map).
  induction H as [t|t x ls ks T o Hl Hs Hd IH|t x ls ks r' Hl Hs Hne|t x ls ks y T o Hl Hs Hh].
  - constructor.
  - apply Forall_app. split; [|by apply IH]. apply Hu. by eapply search_keeps.
  - injection Eo as ->. apply Hu. by eapply search_keeps.
  - subst o. inversion Hh as [T0 o0 Hh0]; subst. inversion Hh0; subst; done.
Qed.
Lemma one_event_defers t e T : one_event ch U t e T (Done RDefer) → truthful ch (t ++ T) → undisturbed T.
Proof.
  inversion 1 as [ls T1 r Hin Hd Hr|ls T1 ks y Hin Hd Hca|]; subst; [|by destruct y]. intros Ht.
  apply Forall_app. split; [by constructor|]. apply Forall_app. split; [|by constructor].
  pose proof (dispatch_keeps _ _ _ _ _ Hd) as Hk. specialize (Hk ltac:(done)).
  apply Forall_forall. intros [b k] Hin'. rewrite Forall_forall in Hk. split; [|by apply Hk]. intros E. simpl in E. subst k.
  apply elem_of_list_split in Hin' as (T2 & T3 & ->).
  destruct (Ht ((t ++ under (Some e) [ODispatch e ls]) ++ T2) b ORelease (T3 ++ under None [ODone])) as (t0 & b' & p & c & u & E & Hu & _).
  { by rewrite <-!app_assoc. }
  assert (Forall (λ o, ∀ p c, ob o ≠ ODtor p c) T2) as HT2.
  { apply Forall_forall. intros o Ho. apply Hk. apply elem_of_app. by left. }
  destruct (after_last _ _ _ _ _ _ _ HT2 E) as [Hd'|[?|Hd']]; [|done|by destruct (Hd' p c)].
  rewrite Forall_forall in Hu. by specialize (Hu _ Hd').
Qed.
Lemma one_event_none t e T o : one_event ch U t e T o → takes T = [] ∧ deferrals T = [].
Proof.
  intros H. destruct (one_event_run ch U _ _ _ _ H) as (ls & T1 & b & k & -> & HT & Hk & _).
  assert (Forall (λ o, enclosed (ob o) = true) T1) as HT1 by (eapply Forall_impl; [exact HT|]; by intros ? []).
  destruct (enclosed_none _ HT1) as (H1 & _ & H3). unfold takes, deferrals, arrivals, omap_ob in *. simpl. rewrite !omap_app, H3. simpl.
  assert (omap (λ o, match ob o with OTake e0 => Some e0 | _ => None end) T1 = []) as ->.
  { clear -HT1. induction HT1 as [|[b []] T Hk]; done. }
  split; by destruct k.
Qed.

(** [n] iterations are only possible if this many events were waiting or were posted. *)
Lemma loop_bound n t T o : event_loop ch U n t T o → o = Running → truthful ch (t ++ T) →
  let M := total t + length (posts T) in
  2 * n ≤ M * (M - 1) + 2 * (length (pending t) + length (posts T)).
Proof.
  induction 1 as [n t|t|n t e T r T' o H1 _ IH|n t e T y H1|n t e T y H1]; intros Ho Ht; cbn zeta; [done|lia| |done|done].
  specialize (IH Ho). rewrite !app_assoc in IH. 
  set (Ti := under None [OTake e] ++ T ++ under None (defers e (Done r))).
  assert (under None [OTake e] ++ T ++ under None (defers e (Done r)) ++ T' = Ti ++ T') as E by (unfold Ti; by rewrite <-!app_assoc).
  rewrite E in *. assert (((t ++ under None [OTake e]) ++ T) ++ under None (defers e (Done r)) = t ++ Ti) as E2 by (unfold Ti; by rewrite !app_assoc).
  rewrite E2 in IH. rewrite app_assoc in Ht. specialize (IH Ht). cbn zeta in IH.
  pose proof (truthful_pre _ _ _ Ht) as Hti. pose proof (total_grows _ _ _ Hti) as Hg.
  assert (head (pending t) = Some e) as Hh by exact (Hti t None (OTake e) _ eq_refl).
  assert (length (posts (Ti ++ T')) = length (posts Ti) + length (posts T')) as -> by (unfold posts; by rewrite omap_ob_app, app_length).
  destruct (one_event_none _ _ _ _ H1) as [Hn1 Hn2].
  assert (takes Ti = [e]) as Htk.
  { unfold Ti, takes in *. rewrite !omap_ob_app, Hn1. simpl. by destruct r. }
  assert (length (pending t) ≥ 1) by (destruct (pending t); simpl in *; [done|lia]).
  assert (length (takes Ti) = 1) as Htl by by rewrite Htk. rewrite Htl in Hg. destruct (decide (r = RDefer)) as [->|Hr].
  - assert (undisturbed Ti) as Hu.
    { apply Forall_app. split; [by constructor|]. apply Forall_app. split; [|by constructor].
      apply (one_event_defers _ _ _ H1). unfold Ti in Hti. rewrite !app_assoc in Hti. by apply truthful_pre in Hti. }
    destruct (truthful_fifo _ _ _ Hti Hu) as [F1 F2]. rewrite Htk in F1. apply (f_equal length) in F1, F2.
    rewrite !app_length in F1. rewrite app_length in F2. change (length [e]) with 1 in F1.
    assert (length (deferrals Ti) = 1) as Hd.
    { unfold Ti, deferrals in *. by rewrite !omap_ob_app, Hn2. }
    rewrite Hd in Hg. set (M := total t + (length (posts Ti) + length (posts T'))) in *. set (M' := total (t ++ Ti) + length (posts T')) in *.
    assert (M' ≤ M) by (unfold M, M'; lia). assert (M' * (M' - 1) ≤ M * (M - 1)) by (apply Nat.mul_le_mono; lia). lia.
  - assert (length (deferrals Ti) = 0) as Hd.
    { unfold Ti, deferrals in *. rewrite !omap_ob_app, Hn2. by destruct r. }
    rewrite Hd in Hg. assert (length (pending (t ++ Ti)) ≤ total (t ++ Ti)) by (unfold total; lia).
    set (M := total t + (length (posts Ti) + length (posts T'))) in *. set (M' := total (t ++ Ti) + length (posts T')) in *.
    assert (M' + 1 ≤ M) by (unfold M, M'; lia).
    assert (length (pending (t ++ Ti)) + length (posts T') ≤ M') by (unfold M'; lia).
    assert (M' * (M' - 1) + 2 * M' ≤ M * (M - 1)) by nia. lia.
Qed.
End loop.

(** ** C49: the event loop ends unless user code keeps posting events *)
(** A call that has been through [n] iterations of the event loop and is not done had as many events to work on:
    those waiting before, the one handed to process_event(), and those posted during the call.  [n] is at most
    1 + 2 + ... + this number, because a deferred event comes back only after another event was consumed. *)
Theorem C49_process {W} (ch : chart) (U : user W) n e s s' T :
  wf_chart ch = true → user_ok ch U → reach ch U s → call ch U (OpProcess n e) s = (Div, s') → tr s' = tr s ++ T →
  let M := length (queue (en s)) + length (deferred (en s)) + 1 + length (posts T) in 2 * n ≤ M * (M + 1).
Proof.
  intros Hwf HU Hr E ET. cbn zeta.
  destruct (story_call ch U Hwf HU s (OpProcess n e) Div s' Hr eq_refl I E) as (T' & o & Ho & E' & Hst).
  rewrite ET in E'. apply app_inv_head in E' as <-. simpl in Ho. subst o. simpl in Hst.
  assert (seen ch U s') as Hs' by by eapply (seen_busy ch U s (OpProcess n e)).
  destruct (seen_truthful ch U Hwf HU _ Hs') as [Ht _]. rewrite ET in Ht.
  destruct (seen_queues ch U Hwf HU _ (seen_reach _ _ _ Hr)) as [-> ->].
  inversion Hst as [T1 r T2 o H1 Hl| |]; subst. rewrite !app_assoc in Ht. rewrite !app_assoc in Hl.
  pose proof (loop_bound ch U _ _ _ _ Hl eq_refl Ht) as Hb. cbn zeta in Hb.
  set (Ti := under None [OProcess e] ++ T1 ++ under None (defers e (Done r))) in *.
  assert (((tr s ++ under None [OProcess e]) ++ T1) ++ under None (defers e (Done r)) = tr s ++ Ti) as E2
    by (unfold Ti; by rewrite !app_assoc).
  rewrite E2 in *. pose proof (total_grows _ _ _ (truthful_pre _ _ _ Ht)) as Hg.
  assert (length (posts (under None [OProcess e] ++ T1 ++ under None (defers e (Done r)) ++ T2)) = length (posts Ti) + length (posts T2)) as ->.
  { unfold Ti, posts. rewrite !omap_ob_app, !app_length. lia. }
  assert (length (deferrals Ti) ≤ 1).
  { destruct (one_event_none _ _ _ _ _ _ H1) as [_ Hn]. unfold Ti, deferrals in *. rewrite !omap_ob_app, Hn. destruct r; simpl; lia. }
  set (M' := total (tr s ++ Ti) + length (posts T2)) in *.
  assert (length (pending (tr s ++ Ti)) ≤ total (tr s ++ Ti)) by (unfold total; lia).
  set (M := length (pending (tr s)) + length (waiting (tr s)) + 1 + (length (posts Ti) + length (posts T2))).
  assert (M' ≤ M) by (unfold M, M', total in *; lia).
  assert (M' * (M' - 1) + 2 * M' ≤ M * (M + 1)) by nia. unfold M' in *. lia.
Qed.
Print Assumptions C49_process.
Theorem C49_initiate {W} (ch : chart) (U : user W) n s s' T :
  wf_chart ch = true → user_ok ch U → reach ch U s → op_allowed ch U (OpInitiate n) s →
  call ch U (OpInitiate n) s = (Div, s') → tr s' = tr s ++ T →
  let M := length (queue (en s)) + length (deferred (en s)) + length (posts T) in 2 * n ≤ M * (M + 1).
Proof.
  intros Hwf HU Hr Hal E ET. cbn zeta.
  destruct (story_call ch U Hwf HU s (OpInitiate n) Div s' Hr eq_refl Hal E) as (T' & o & Ho & E' & Hst).
  rewrite ET in E'. apply app_inv_head in E' as <-. simpl in Ho. subst o. simpl in Hst.
  assert (seen ch U s') as Hs' by by eapply (seen_busy ch U s (OpInitiate n)).
  destruct (seen_truthful ch U Hwf HU _ Hs') as [Ht _]. rewrite ET in Ht.
  destruct (seen_queues ch U Hwf HU _ (seen_reach _ _ _ Hr)) as [-> ->].
  inversion Hst as [| |T1 T2 T3 o H1 H2 Hl]; subst. rewrite !app_assoc in Ht. rewrite !app_assoc in Hl.
  pose proof (loop_bound ch U _ _ _ _ Hl eq_refl Ht) as Hb. cbn zeta in Hb.
  rewrite <-(app_assoc _ T1 T2) in *. pose proof (total_grows _ _ _ (truthful_pre _ _ _ Ht)) as Hg.
  assert (length (posts (T1 ++ T2 ++ T3)) = length (posts (T1 ++ T2)) + length (posts T3)) as ->.
  { unfold posts. rewrite !omap_ob_app, !app_length. lia. }
  assert (deferrals (T1 ++ T2) = []) as Hd.
  { apply enclosed_none, Forall_app. pose proof (terminating_outerk ch U _ _ _ H1). pose proof (starting_outerk ch U _ _ _ H2).
    split; (eapply Forall_impl; [eassumption|]); by intros [b []]. }
  rewrite Hd in Hg. simpl in Hg.
  set (M' := total (tr s ++ T1 ++ T2) + length (posts T3)) in *.
  assert (length (pending (tr s ++ T1 ++ T2)) ≤ total (tr s ++ T1 ++ T2)) by (unfold total; lia).
  set (M := length (pending (tr s)) + length (waiting (tr s)) + (length (posts (T1 ++ T2)) + length (posts T3))).
  assert (M' ≤ M) by (unfold M, M', total in *; lia).
  assert (M' * (M' - 1) + 2 * M' ≤ M * (M + 1)) by nia. unfold M' in *. lia.
Qed.
Print Assumptions C49_initiate.
(** The calls of C15_example's machine: state 2 deferred two events and is left, posting another one.  After one
    iteration of the event loop the call is not done; here M is 4. *)
Example C49_example : ∃ s s' T, reach Demo.chart5 Demo.U s ∧ queue (en s) = [] ∧ deferred (en s) = [ev 3; ev 7] ∧
  call Demo.chart5 Demo.U (OpProcess 1 (ev 0)) s = (Div, s') ∧ tr s' = tr s ++ T ∧ posts T = [ev 33] ∧
  queue (en s') = [ev 7; ev 33].
Proof.
  destruct (played Demo.chart5 Demo.U Demo.calls1 (Demo.script1 ++ [(PExit 2, Deed [CPost (ev 33)] None DDiscard)])
    (λ s, bool_decide (queue (en s) = []) && bool_decide (deferred (en s) = [ev 3; ev 7]) && match call Demo.chart5 Demo.U (OpProcess 1 (ev 0)) s with
          | (Div, s') => let T := drop (length (tr s)) (tr s') in bool_decide (tr s' = tr s ++ T) && bool_decide (posts T = [ev 33]) &&
              bool_decide (queue (en s') = [ev 7; ev 33])
          | _ => false end)) as (s & Hs & H); [by_eval|].
  apply andb_true_iff in H as [[H0 H1]%andb_true_iff H].
  destruct (call Demo.chart5 Demo.U (OpProcess 1 (ev 0)) s) as [[[]|y|f|] s'] eqn:E; try done.
  apply andb_true_iff in H as [[H2 H3]%andb_true_iff H4]. apply bool_decide_eq_true in H0, H1, H2, H3, H4.
  by exists s, s', (drop (length (tr s)) (tr s')).
Qed.

(** So a call ends if there is a bound on the number of events that user code posts, however long it runs. *)
Theorem C49_ends {W} (ch : chart) (U : user W) o s k :
  wf_chart ch = true → user_ok ch U → reach ch U s → op_ok ch o = true → op_allowed ch U o s →
  (∀ o' r s' T, more_iterations o o' → call ch U o' s = (r, s') → tr s' = tr s ++ T → length (posts T) ≤ k) →
  ∃ o', more_iterations o o' ∧ (call ch U o' s).1 ≠ Div.
Proof.
  intros Hwf HU Hr Hok Hal Hk. destruct o as [n| |n e|e|c i|c i].
  - set (B := length (queue (en s)) + length (deferred (en s)) + k). exists (OpInitiate (n + B * (B + 1) + 1)).
    split; [apply more_initiate; lia|]. destruct (call ch U _ s) as [r s'] eqn:E. simpl. intros ->.
    destruct (story_call ch U Hwf HU s (OpInitiate (n + B * (B + 1) + 1)) Div s' Hr eq_refl Hal E) as (T & _ & _ & ET & _).
    pose proof (C49_initiate ch U (n + B * (B + 1) + 1) s s' T Hwf HU Hr Hal E ET) as Hb. cbn zeta in Hb.
    assert (length (posts T) ≤ k) as Hp. { eapply Hk; [|exact E|exact ET]. apply more_initiate. lia. }
    set (M := length (queue (en s)) + length (deferred (en s)) + length (posts T)) in *.
    assert (M ≤ B) by (unfold M, B; lia). assert (M * (M + 1) ≤ B * (B + 1)) by (apply Nat.mul_le_mono; lia). lia.
  - exists OpTerminate. split; [constructor|]. destruct (call ch U OpTerminate s) as [r s'] eqn:E. simpl. intros ->.
    destruct (story_call ch U Hwf HU s OpTerminate Div s' Hr eq_refl Hal E) as (T & o & Ho & _ & Hst). simpl in Ho. subst o.
    simpl in Hst. unfold terminating in Hst. inversion Hst.
  - set (B := length (queue (en s)) + length (deferred (en s)) + 1 + k). exists (OpProcess (n + B * (B + 1) + 1) e).
    split; [apply more_process; lia|]. destruct (call ch U _ s) as [r s'] eqn:E. simpl. intros ->.
    destruct (story_call ch U Hwf HU s (OpProcess (n + B * (B + 1) + 1) e) Div s' Hr eq_refl I E) as (T & _ & _ & ET & _).
    pose proof (C49_process ch U _ e s s' T Hwf HU Hr E ET) as Hb. cbn zeta in Hb.
    assert (length (posts T) ≤ k) as Hp. { eapply Hk; [|exact E|exact ET]. apply more_process. lia. }
    set (M := length (queue (en s)) + length (deferred (en s)) + 1 + length (posts T)) in *.
    assert (M ≤ B) by (unfold M, B; lia). assert (M * (M + 1) ≤ B * (B + 1)) by (apply Nat.mul_le_mono; lia). lia.
  - exists (OpPost e). split; [constructor|done].
  - exists (OpClearShallow c i). split; [constructor|]. destruct (call ch U _ s) as [r s'] eqn:E. simpl. intros ->.
    by destruct (story_call ch U Hwf HU s (OpClearShallow c i) Div s' Hr Hok I E) as (T & o & -> & _ & _ & ?).
  - exists (OpClearDeep c i). split; [constructor|]. destruct (call ch U _ s) as [r s'] eqn:E. simpl. intros ->.
    by destruct (story_call ch U Hwf HU s (OpClearDeep c i) Div s' Hr Hok I E) as (T & o & -> & _ & _ & ?).
Qed.
Print Assumptions C49_ends.
(** The same machine, without the posting exit(): it is not done without iterations of the event loop, but posts
    nothing. *)
Example C49_ends_example : ∃ s, reach Demo.chart5 Demo.U s ∧ (call Demo.chart5 Demo.U (OpProcess 0 (ev 0)) s).1 = Div ∧
  ∀ o' r s' T, more_iterations (OpProcess 0 (ev 0)) o' → call Demo.chart5 Demo.U o' s = (r, s') → tr s' = tr s ++ T → length (posts T) ≤ 0.
Proof.
  destruct (played Demo.chart5 Demo.U Demo.calls1 Demo.script1
    (λ s, match call Demo.chart5 Demo.U (OpProcess 0 (ev 0)) s with (Div, _) => true | _ => false end &&
      forallb (λ n, bool_decide (posts (tr (call Demo.chart5 Demo.U (OpProcess n (ev 0)) s).2) = posts (tr s))) [0; 1; 2; 3] &&
      match call Demo.chart5 Demo.U (OpProcess 3 (ev 0)) s with (Ret _, _) => true | _ => false end)) as (s & Hs & H); [by_eval|].
  apply andb_true_iff in H as [[H0 H1]%andb_true_iff H2]. exists s. split; [done|].
  split; [by destruct (call Demo.chart5 Demo.U (OpProcess 0 (ev 0)) s) as [[] ?]|].
  assert (∀ n, posts (tr (call Demo.chart5 Demo.U (OpProcess n (ev 0)) s).2) = posts (tr s)) as Hp.
  { intros n. rewrite forallb_forall in H1.
    destruct (decide (n < 4)) as [Hn|Hn].
    - eapply bool_decide_eq_true, (H1 n). simpl. lia.
    - rewrite (call_mono Demo.chart5 Demo.U (OpProcess 3 (ev 0)) (OpProcess n (ev 0)) s).
      + eapply bool_decide_eq_true, (H1 3). simpl. lia.
      + constructor. lia.
      + by destruct (call Demo.chart5 Demo.U (OpProcess 3 (ev 0)) s) as [[] ?]. }
  intros o' r s' T Ho E ET. assert (∃ n, o' = OpProcess n (ev 0)) as [n ->] by (inversion Ho; subst; eauto).
  specialize (Hp n). rewrite E in Hp. simpl in Hp. rewrite ET in Hp. unfold posts in Hp. rewrite omap_ob_app in Hp.
  apply (f_equal length) in Hp. rewrite app_length in Hp. unfold posts. lia.
Qed.
