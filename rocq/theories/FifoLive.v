(** * Fair executions of [fifo_worker] *)
From Verif Require Export FifoInv.

(** ** Executions without end
    [σ n] is the state after [n] moments; at each moment one thread makes a step ([who n]) or nothing happens. *)
Record execution {P} (wait : bool) (σ : nat → fifo P) (who : nat → option tid) : Prop := {
  x_start : freach wait (σ 0);
  x_step n : match who n with Some t => step t (σ n) (σ (S n)) | None => σ (S n) = σ n end;
}.
(** The library can make a step in thread [t]: the thread is inside a call of the library, and neither waits for the lock while
    another thread holds it nor for a notification. *)
Definition able {P} (t : tid) (s : fifo P) : Prop :=
  fpc s t ≠ TUser ∧ fpc s t ≠ TDWait ∧ ∃ s', step t s s'.
(** The scheduler and the mutex treat all threads fairly: a thread that is able to go on again and again goes on. *)
Definition fair {P} (σ : nat → fifo P) (who : nat → option tid) : Prop :=
  ∀ t n, ∃ m, n ≤ m ∧ (who m = Some t ∨ ∀ k, m ≤ k → ¬ able t (σ k)).
(** operator() is looking for the next item, and has not found the queue empty. *)
Definition looking {P} (p : tpc P) : bool :=
  match p with TDUnlock None | TGot None => false | _ => dequeueing p end.

Section live.
Context {P : Type} (wait : bool) (σ : nat → fifo P) (who : nat → option tid).
Context (Hx : execution wait σ who).
Implicit Types (s : fifo P) (t u : tid) (p : tpc P).
Local Arguments set_pc : simpl never.
Local Arguments notify : simpl never.

Lemma reach_at n : freach wait (σ n).
Proof.
  induction n as [|n IH]; [apply Hx|]. pose proof (x_step _ _ _ Hx n) as H. destruct (who n) as [t|].
  - by eapply freach_step.
  - by rewrite H.
Qed.
Lemma inv_at n : Inv (σ n).
Proof. eapply freach_inv, reach_at. Qed.

(** ** What a step does not change *)
Lemma step_other s s' u t : step u s s' → u ≠ t → fpc s t ≠ TDWait → fpc s' t = fpc s t.
Proof.
  intros Hs Hu Hw. destruct Hs; simpl; rewrite set_pc_ne by done; try done.
  rewrite notify_pc. case_decide as E; [subst t|done]. by destruct (fpc s 0).
Qed.
Lemma step_wait s s' u : step u s s' → fpc s worker = TDWait → fpc s' worker = TDWait ∨ fpc s' worker = TDWoken.
Proof.
  intros Hs Hw. destruct (decide (u = worker)) as [->|Hu].
  - destruct Hs; try congruence. right. apply set_pc_eq.
  - destruct Hs; simpl; rewrite set_pc_ne by done; auto. rewrite notify_pc, decide_True, Hw by done. auto.
Qed.
Lemma step_queue s s' u : step u s s' → (u ≠ worker ∨ fpc s worker = TDWait) → Inv s →
  started (ftr s') = started (ftr s) ∧ ∃ l, fqueue s' = fqueue s ++ l.
Proof.
  intros Hs Hu I. assert (u ≠ worker → outside (fpc s u) = true) as Ho by apply (i_prod s I).
  destruct Hs; simpl; rewrite ?started_app, ?notify_tr, ?notify_queue; simpl; rewrite ?app_nil_r; split; try done;
    try (by exists []; rewrite app_nil_r); try (by eexists).
  all: destruct Hu as [Hu|Hu]; [done|congruence].
Qed.
Lemma step_pushed s s' u t : step u s s' → u ≠ t → pushed_of t (ftr s') = pushed_of t (ftr s).
Proof.
  intros Hs Hu. destruct Hs; simpl; rewrite ?notify_tr, pushed_of_app; unfold pushed_of at 2; simpl; rewrite ?app_nil_r; try done.
  rewrite filter_cons, decide_False by done. simpl. by rewrite app_nil_r.
Qed.

(** ** Until a thread makes a step *)
Lemma steps_between t n m : n ≤ m →
  (∃ k, n ≤ k < m ∧ who k = Some t ∧ ∀ j, n ≤ j < k → who j ≠ Some t) ∨ ∀ k, n ≤ k < m → who k ≠ Some t.
Proof.
  induction 1 as [|m Hm IH]; [right; lia|]. destruct IH as [(k & ? & H)|H]; [left; exists k; split; [lia|done]|].
  destruct (decide (who m = Some t)) as [E|E].
  - left. exists m. split; [lia|done].
  - right. intros k Hk. destruct (decide (k = m)) as [->|]; [done|]. apply H. lia.
Qed.
Lemma stays t n m : n ≤ m → fpc (σ n) t ≠ TDWait → (∀ k, n ≤ k < m → who k ≠ Some t) →
  fpc (σ m) t = fpc (σ n) t ∧ pushed_of t (ftr (σ m)) = pushed_of t (ftr (σ n)).
Proof.
  intros Hm Hp. induction Hm as [|m Hm IH]; [done|]. intros H. destruct IH as [IH1 IH2]; [intros; apply H; lia|].
  rewrite <-IH1, <-IH2. pose proof (x_step _ _ _ Hx m) as Hs. destruct (who m) as [u|] eqn:E; [|by rewrite Hs].
  assert (u ≠ t) by (intros ->; apply (H m); [lia|done]).
  split; [eapply step_other; [done|done|congruence]|by eapply step_pushed].
Qed.
Lemma queue_stays n m : n ≤ m → (∀ k, n ≤ k < m → who k ≠ Some worker) →
  started (ftr (σ m)) = started (ftr (σ n)) ∧ ∃ l, fqueue (σ m) = fqueue (σ n) ++ l.
Proof.
  intros Hm. induction Hm as [|m Hm IH]; [intros _; split; [done|]; exists []; by rewrite app_nil_r|].
  intros H. destruct IH as [IH1 [l IH2]]; [intros; apply H; lia|].
  pose proof (x_step _ _ _ Hx m) as Hs. destruct (who m) as [u|] eqn:E; [|rewrite Hs; eauto].
  destruct (step_queue _ _ _ Hs) as [H1 [l' H2]]; [left; intros ->; by apply (H m ltac:(lia))|apply inv_at|].
  rewrite H1, H2, IH2, <-app_assoc. eauto.
Qed.

(** ** Fairness *)
Context (Hfair : fair σ who).
Lemma moves t n : fpc (σ n) t ≠ TDWait →
  (∀ m, n ≤ m → ∃ k, m ≤ k ∧ (fpc (σ k) t = fpc (σ n) t → able t (σ k))) →
  ∃ k, n ≤ k ∧ who k = Some t ∧ fpc (σ k) t = fpc (σ n) t ∧ pushed_of t (ftr (σ k)) = pushed_of t (ftr (σ n)) ∧
    ∀ j, n ≤ j < k → who j ≠ Some t.
Proof.
  intros Hp Hab.
  assert (∀ m, n ≤ m → (∃ k, n ≤ k < m ∧ who k = Some t ∧ ∀ j, n ≤ j < k → who j ≠ Some t) →
    ∃ k, n ≤ k ∧ who k = Some t ∧ fpc (σ k) t = fpc (σ n) t ∧ pushed_of t (ftr (σ k)) = pushed_of t (ftr (σ n)) ∧
    ∀ j, n ≤ j < k → who j ≠ Some t) as Hgo.
  { intros m _ (k & Hk & H1 & H2). exists k. split; [lia|]. split; [done|].
    destruct (stays t n k ltac:(lia) Hp H2) as [E1 E2]. done. }
  destruct (Hfair t n) as (m & Hm & [H|H]).
  - apply (Hgo (S m)); [lia|]. destruct (steps_between t n (S m)) as [?|Hno]; [lia|done|]. exfalso. by apply (Hno m ltac:(lia)).
  - destruct (Hab m Hm) as (k & Hk & Hk'). destruct (steps_between t n k) as [?|Hno]; [lia|apply (Hgo k); [lia|done]|].
    destruct (stays t n k ltac:(lia) Hp Hno) as [E _]. by destruct (H k Hk (Hk' E)).
Qed.

(** Whoever holds the lock is able to go on, and releases it after a few steps. *)
Lemma hold_able s t : Inv s → holding (fpc s t) = true → able t s.
Proof.
  intros I Hh. assert (t ≠ worker → outside (fpc s t) = true) as Ho by apply (i_prod s I).
  split; [by intros E; rewrite E in Hh|]. split; [by intros E; rewrite E in Hh|].
  destruct (decide (t = worker)) as [->|Ht].
  - destruct (fpc s 0) eqn:E; try done; try by eexists; econstructor.
    + destruct (negb (fwait s) && bool_decide (fqueue s = [])) eqn:E2; eexists; [by apply SDCheckEmpty|by apply SDCheck].
    + destruct (fqueue s) eqn:E2; eexists; [by apply SDEmpty|apply SDLeave; [done|congruence]].
    + destruct (fqueue s) eqn:E2; [by destruct (i_pop s I E)|]. eexists. by eapply SDPop.
  - specialize (Ho Ht). destruct (fpc s t) eqn:E; try done; by eexists; econstructor.
Qed.
Definition rest p : nat :=
  match p with
  | TQPush _ => 3 | TQNotify => 2 | TQUnlock => 1
  | TDCheck => 5 | TDWhile => 4 | TDPop => 3 | TDSleep => 1 | TDUnlock _ => 1 | _ => 0
  end.
Lemma hold_step s s' u : Inv s → step u s s' → fmtx s = Some u →
  fmtx s' = None ∨ fmtx s' = Some u ∧ rest (fpc s' u) < rest (fpc s u).
Proof.
  intros I Hs Hm. pose proof (proj1 (i_mtx s I u) Hm) as Hh.
  destruct Hs; simpl; rewrite ?notify_mtx; try (left; done); try congruence; right; (split; [done|]);
    try rewrite set_pc_eq; repeat match goal with H : fpc s _ = _ |- _ => rewrite H in *; clear H end; simpl in *; try done; lia.
Qed.
Lemma released n : ∃ m, n ≤ m ∧ fmtx (σ m) = None.
Proof.
  destruct (fmtx (σ n)) as [u|] eqn:Hm; [|by exists n].
  remember (rest (fpc (σ n) u)) as r eqn:Hr. revert n Hm Hr. induction (lt_wf r) as [r _ IH]. intros n Hm Hr.
  pose proof (proj1 (i_mtx _ (inv_at n) u) Hm) as Hh.
  destruct (moves u n) as (k & Hk & Hw & Hp & _).
  - intros E. by rewrite E in Hh.
  - intros m Hm'. exists m. split; [done|]. intros E. apply hold_able; [apply inv_at|by rewrite E].
  - pose proof (x_step _ _ _ Hx k) as Hs. rewrite Hw in Hs.
    assert (fmtx (σ k) = Some u) as Hm2 by (apply (i_mtx _ (inv_at k)); by rewrite Hp).
    destruct (hold_step _ _ _ (inv_at k) Hs Hm2) as [H|[H1 H2]]; [exists (S k); split; [lia|done]|].
    rewrite Hp in H2. destruct (IH (rest (fpc (σ (S k)) u)) ltac:(lia) (S k) H1 eq_refl) as (m & ? & ?).
    exists m. split; [lia|done].
Qed.

(** A thread inside the library makes its next step, unless it waits for a notification. *)
Lemma able_free s t : Inv s → fpc s t ≠ TUser → fpc s t ≠ TDWait → fmtx s = None → able t s.
Proof.
  intros I H1 H2 Hm. split; [done|]. split; [done|].
  assert (t ≠ worker → outside (fpc s t) = true) as Ho by apply (i_prod s I).
  destruct (decide (t = worker)) as [->|Ht].
  - pose proof (i_stack s I) as Hst. unfold stack_ok in Hst.
    destruct (holding (fpc s 0)) eqn:Eh; [by apply hold_able|].
    destruct (fpc s 0) eqn:E; simpl in *; try done; try by eexists; econstructor.
    all: destruct Hst as (f & fs & Hf & _).
    + destruct (go_on s f) eqn:Eg; eexists; [by eapply STestGo|by eapply STestEnd].
    + destruct r as [[?|]|]; eexists; [by eapply SGotUser|by eapply SGotTerm|by eapply SGotNone].
    + eexists. by eapply STerm.
  - specialize (Ho Ht). destruct (fpc s t) eqn:E; try done; by eexists; econstructor.
Qed.
Lemma goes_on t n : fpc (σ n) t ≠ TUser → fpc (σ n) t ≠ TDWait →
  ∃ k, n ≤ k ∧ step t (σ k) (σ (S k)) ∧ fpc (σ k) t = fpc (σ n) t ∧ pushed_of t (ftr (σ k)) = pushed_of t (ftr (σ n)) ∧
    ∀ j, n ≤ j < k → who j ≠ Some t.
Proof.
  intros H1 H2. destruct (moves t n H2) as (k & Hk & Hw & H).
  - intros m Hm. destruct (released m) as (k & Hk & Hf). exists k. split; [done|]. intros E.
    apply able_free; [apply inv_at|by rewrite E|by rewrite E|done].
  - exists k. split; [done|]. split; [|done]. pose proof (x_step _ _ _ Hx k) as Hs. by rewrite Hw in Hs.
Qed.

(** ** Calls of queue_work_item() return or throw *)
Lemma call_returns t n i : outstanding (fpc (σ n) t) = [i] →
  ∃ m, n < m ∧ fpc (σ m) t = TUser ∧
    (last (ftr (σ m)) = Some (FCallRet t) ∧ pushed_of t (ftr (σ m)) = pushed_of t (ftr (σ n)) ++ [i] ∨
     last (ftr (σ m)) = Some (FFail t i) ∧ pushed_of t (ftr (σ m)) = pushed_of t (ftr (σ n))).
Proof.
  assert (∀ n, fpc (σ n) t = TQUnlock → ∃ m, n ≤ m ∧ fpc (σ m) t = TUser ∧ last (ftr (σ m)) = Some (FCallRet t) ∧
    pushed_of t (ftr (σ m)) = pushed_of t (ftr (σ n))) as H1.
  { intros n1 E. destruct (goes_on t n1) as (k & Hk & Hs & Ep & Eq & _); [by rewrite E|by rewrite E|].
    rewrite E in Ep. exists (S k). split; [lia|]. rewrite <-Eq. destruct Hs; try congruence. simpl.
    rewrite set_pc_eq, last_snoc, pushed_of_app. unfold pushed_of at 2. simpl. by rewrite app_nil_r. }
  assert (∀ n, fpc (σ n) t = TQNotify → ∃ m, n ≤ m ∧ fpc (σ m) t = TUser ∧ last (ftr (σ m)) = Some (FCallRet t) ∧
    pushed_of t (ftr (σ m)) = pushed_of t (ftr (σ n))) as H2.
  { intros n1 E. destruct (goes_on t n1) as (k & Hk & Hs & Ep & Eq & _); [by rewrite E|by rewrite E|].
    rewrite E in Ep. destruct (H1 (S k)) as (m & Hm & G1 & G2 & G3).
    - destruct Hs; try congruence. simpl. apply set_pc_eq.
    - exists m. split; [lia|]. split; [done|]. split; [done|]. rewrite G3, <-Eq. destruct Hs; try congruence. simpl.
      by rewrite app_nil_r, notify_tr. }
  assert (∀ n, fpc (σ n) t = TQPush i → ∃ m, n < m ∧ fpc (σ m) t = TUser ∧
    (last (ftr (σ m)) = Some (FCallRet t) ∧ pushed_of t (ftr (σ m)) = pushed_of t (ftr (σ n)) ++ [i] ∨
     last (ftr (σ m)) = Some (FFail t i) ∧ pushed_of t (ftr (σ m)) = pushed_of t (ftr (σ n)))) as H3.
  { intros n1 E. destruct (goes_on t n1) as (k & Hk & Hs & Ep & Eq & _); [by rewrite E|by rewrite E|].
    rewrite E in Ep.
    assert (fpc (σ (S k)) t = TQNotify ∧ pushed_of t (ftr (σ (S k))) = pushed_of t (ftr (σ k)) ++ [i] ∨
      fpc (σ (S k)) t = TUser ∧ last (ftr (σ (S k))) = Some (FFail t i) ∧ pushed_of t (ftr (σ (S k))) = pushed_of t (ftr (σ k)))
      as [[G1 G2]|(G1 & G2 & G3)].
    { destruct Hs; try congruence; simpl; rewrite set_pc_eq, pushed_of_app; [left|right]; unfold pushed_of at 2; simpl.
      - split; [done|]. rewrite filter_cons, decide_True by done. simpl. congruence.
      - split; [done|]. rewrite last_snoc, app_nil_r. split; congruence. }
    - destruct (H2 (S k) G1) as (m & Hm & F1 & F2 & F3). exists m. split; [lia|]. split; [done|]. left.
      rewrite F3, G2. split; congruence.
    - exists (S k). split; [lia|]. split; [done|]. right. rewrite G3. split; congruence. }
  intros Ho. destruct (fpc (σ n) t) eqn:E; try done; injection Ho as ->; [|by apply H3].
  destruct (goes_on t n) as (k & Hk & Hs & Ep & Eq & _); [by rewrite E|by rewrite E|].
  rewrite E in Ep. destruct (H3 (S k)) as (m & Hm & G1 & G2).
  - destruct Hs; try congruence. simpl. rewrite set_pc_eq. congruence.
  - exists m. split; [lia|]. split; [done|]. rewrite <-Eq.
    assert (pushed_of t (ftr (σ (S k))) = pushed_of t (ftr (σ k))) as <-; [|done].
    destruct Hs; try congruence. simpl. by rewrite app_nil_r.
Qed.

Lemma call_ends t n : queueing (fpc (σ n) t) = true → ∃ m, n ≤ m ∧ fpc (σ m) t = TUser.
Proof.
  assert (∀ n, fpc (σ n) t = TQUnlock → ∃ m, n ≤ m ∧ fpc (σ m) t = TUser) as H1.
  { intros n1 E. destruct (goes_on t n1) as (k & Hk & Hs & Ep & _); [by rewrite E|by rewrite E|].
    exists (S k). split; [lia|]. destruct Hs; try congruence. simpl. apply set_pc_eq. }
  intros H. destruct (fpc (σ n) t) as [|i|i| | | | | | | | | | | | |] eqn:E; try done.
  1, 2: destruct (call_returns t n i) as (m & Hm & H2 & _); [by rewrite E|exists m; split; [lia|done]].
  - destruct (goes_on t n) as (k & Hk & Hs & Ep & _); [by rewrite E|by rewrite E|].
    destruct (H1 (S k)) as (m & Hm & H2); [|exists m; split; [lia|done]]. destruct Hs; try congruence. simpl. apply set_pc_eq.
  - by apply H1.
Qed.

(** ** Items are called *)
Definition dist p : nat :=
  match p with
  | TDWait => 9 | TDWoken => 8 | TDLock => 7 | TDCheck => 6 | TDWhile => 5 | TDPop => 4 | TDUnlock _ => 3 | TGot _ => 2
  | _ => 0
  end.
Lemma looking_step s s' i q : Inv s → step worker s s' → looking (fpc s worker) = true → fpc s worker ≠ TDWait →
  inhand (fpc s worker) ++ fqueue s = i :: q →
  last (ftr s') = Some (FStart i) ∧ started (ftr s') = started (ftr s) ++ [i] ∨
  started (ftr s') = started (ftr s) ∧ looking (fpc s' worker) = true ∧ inhand (fpc s' worker) ++ fqueue s' = i :: q ∧
    dist (fpc s' worker) < dist (fpc s worker).
Proof.
  intros I Hs Hl Hw Hq. pose proof (i_sleep s I) as Isl.
  remember (worker : tid) as w eqn:Ew in Hs. destruct Hs; subst; simpl; rewrite ?set_pc_eq, ?started_app, ?app_nil_r;
    repeat match goal with H : fpc s 0 = _ |- _ => rewrite H in *; clear H end; simpl in *; try done;
    rewrite ?last_snoc, ?app_nil_r; simplify_eq.
  all: try (by left). all: try (right; split_and!; [done|done|done|lia]).
  - exfalso. rewrite Hq, andb_comm in *. done.
  - by rewrite Isl in Hq.
  - right. split_and!; [done|done|congruence|lia].
Qed.
Lemma woken n k t : n ≤ k → fpc (σ n) worker = TDWait → t ≠ worker → step t (σ k) (σ (S k)) → fpc (σ k) t = TQNotify →
  ∃ j, n < j ∧ fpc (σ j) worker = TDWoken ∧ started (ftr (σ j)) = started (ftr (σ n)) ∧ ∃ l, fqueue (σ j) = fqueue (σ n) ++ l.
Proof.
  intros Hk Hp Ht Hs Hn. remember (k - n) as d eqn:Hd. revert n Hk Hp Hd. induction d as [|d IH]; intros n Hk Hp Hd.
  - assert (n = k) as -> by lia. exists (S k). split; [lia|].
    destruct (step_queue _ _ _ Hs ltac:(by left) (inv_at k)) as [H1 H2]. split; [|done].
    destruct Hs; try congruence. simpl. rewrite set_pc_ne by done. by rewrite notify_pc, decide_True, Hp by done.
  - pose proof (x_step _ _ _ Hx n) as Hsn. destruct (who n) as [u|] eqn:E.
    + destruct (step_queue _ _ _ Hsn ltac:(by right) (inv_at n)) as [H1 [l H2]].
      destruct (step_wait _ _ _ Hsn Hp) as [H|H].
      * destruct (IH (S n)) as (j & Hj & G1 & G2 & l' & G3); [lia|done|lia|]. exists j. split; [lia|]. split; [done|].
        rewrite G2, G3, H2, <-app_assoc. eauto.
      * exists (S n). split; [lia|]. eauto.
    + destruct (IH (S n)) as (j & Hj & G); [lia|by rewrite Hsn|lia|]. rewrite Hsn in G. exists j. split; [lia|done].
Qed.
Lemma item_called n i q : looking (fpc (σ n) worker) = true → inhand (fpc (σ n) worker) ++ fqueue (σ n) = i :: q →
  ∃ m, n < m ∧ last (ftr (σ m)) = Some (FStart i) ∧ started (ftr (σ m)) = started (ftr (σ n)) ++ [i].
Proof.
  remember (dist (fpc (σ n) worker)) as d eqn:Hd. revert n q Hd. induction (lt_wf d) as [d _ IH]. intros n q Hd Hl Hq.
  assert (fpc (σ n) worker = TDWait ∨ fpc (σ n) worker ≠ TDWait) as [E|E] by (destruct (fpc (σ n) worker); by (left + right)).
  - rewrite E in Hq. simpl in Hq. destruct (i_wait _ (inv_at n) E) as [H|[t Ht]]; [congruence|].
    assert (t ≠ worker) as Htw by (intros ->; congruence).
    destruct (goes_on t n) as (k & Hk & Hs & Ep & _); [by rewrite Ht|by rewrite Ht|].
    destruct (woken n k t Hk E Htw Hs) as (j & Hj & G1 & G2 & l & G3); [congruence|].
    rewrite E in Hd. destruct (IH 8 ltac:(simpl in Hd; lia) j (q ++ l)) as (m & Hm & F1 & F2).
    + by rewrite G1.
    + by rewrite G1.
    + by rewrite G1, G3, Hq.
    + exists m. split; [lia|]. by rewrite <-G2.
  - destruct (goes_on worker n) as (k & Hk & Hs & Ep & _ & Hno); [by intros E2; rewrite E2 in Hl|done|].
    destruct (queue_stays n k Hk Hno) as [G1 [l G2]].
    destruct (looking_step _ _ i (q ++ l) (inv_at k) Hs) as [[F1 F2]|(F1 & F2 & F3 & F4)].
    + by rewrite Ep.
    + by rewrite Ep.
    + rewrite Ep, G2, app_assoc, Hq. done.
    + exists (S k). split; [lia|]. by rewrite <-G1.
    + rewrite Ep in F4. destruct (IH (dist (fpc (σ (S k)) worker)) ltac:(lia) (S k) (q ++ l) eq_refl F2 F3) as (m & Hm & H1 & H2).
      exists m. split; [lia|]. rewrite <-G1, <-F1. done.
Qed.

(** ** All items are called *)
Lemma step_prefix s s' u : step u s s' → ftr s `prefix_of` ftr s'.
Proof. intros Hs. destruct Hs; simpl; rewrite ?notify_tr; by eexists. Qed.
Lemma trace_grows n m : n ≤ m → ftr (σ n) `prefix_of` ftr (σ m).
Proof.
  induction 1 as [|m _ IH]; [done|]. etrans; [exact IH|]. pose proof (x_step _ _ _ Hx m) as Hs.
  destruct (who m); [by eapply step_prefix|by rewrite Hs].
Qed.
Lemma pushed_idle t n : queueing (fpc (σ n) t) = false →
  asked t (ftr (σ n)) = pushed_of t (ftr (σ n)) ∧ answered t (ftr (σ n)) = length (pushed_of t (ftr (σ n))).
Proof.
  intros E. pose proof (i_ask _ (inv_at n) t) as Ha. pose proof (i_ans _ (inv_at n) t) as Hn.
  assert (outstanding (fpc (σ n) t) = []) as Ho by by destruct (fpc (σ n) t).
  rewrite Ho, app_nil_r in Ha. rewrite Ha, E in Hn. split; [done|lia].
Qed.
(** The call that a thread was in has returned, or has thrown. *)
Lemma call_over t n : ∃ m, n ≤ m ∧ queueing (fpc (σ m) t) = false ∧
  (pushed_of t (ftr (σ m)) = asked t (ftr (σ n)) ∨
   n < m ∧ ∃ i, last (ftr (σ m)) = Some (FFail t i) ∧ asked t (ftr (σ n)) = pushed_of t (ftr (σ m)) ++ [i]).
Proof.
  pose proof (i_ask _ (inv_at n) t) as Ha.
  assert (∀ n, fpc (σ n) t = TQUnlock → ∃ m, n ≤ m ∧ fpc (σ m) t = TUser ∧ pushed_of t (ftr (σ m)) = pushed_of t (ftr (σ n))) as H1.
  { intros n1 E. destruct (goes_on t n1) as (k & Hk & Hs & Ep & Eq & _); [by rewrite E|by rewrite E|].
    exists (S k). split; [lia|]. rewrite <-Eq. destruct Hs; try congruence. simpl. rewrite set_pc_eq, pushed_of_app.
    unfold pushed_of at 2. simpl. by rewrite app_nil_r. }
  destruct (outstanding (fpc (σ n) t)) as [|i [|]] eqn:Eo.
  - rewrite app_nil_r in Ha. destruct (queueing (fpc (σ n) t)) eqn:Eq; [|exists n; eauto].
    assert (∃ m, n ≤ m ∧ fpc (σ m) t = TUser ∧ pushed_of t (ftr (σ m)) = pushed_of t (ftr (σ n))) as (m & Hm & G1 & G2).
    { destruct (fpc (σ n) t) eqn:E; try done; [|by apply H1].
      destruct (goes_on t n) as (k & Hk & Hs & Ep & Epu & _); [by rewrite E|by rewrite E|].
      destruct (H1 (S k)) as (m & Hm & G1 & G2); [destruct Hs; try congruence; simpl; apply set_pc_eq|].
      exists m. split; [lia|]. split; [done|]. rewrite G2, <-Epu. destruct Hs; try congruence. simpl. by rewrite app_nil_r, notify_tr. }
    exists m. split; [done|]. rewrite G1. split; [done|]. left. congruence.
  - destruct (call_returns t n i Eo) as (m & Hm & Hp & H). exists m. split; [lia|]. rewrite Hp. split; [done|].
    destruct H as [[_ H]|[Hl H]]; [left; by rewrite H|right]. split; [done|]. exists i. by rewrite H.
  - by destruct (fpc (σ n) t).
Qed.
Lemma calls_end t n : ∃ m, n ≤ m ∧ answered t (ftr (σ m)) = length (pushed_of t (ftr (σ m))) ∧
  (pushed_of t (ftr (σ m)) = asked t (ftr (σ n)) ∨
   ∃ i, last (ftr (σ m)) = Some (FFail t i) ∧ asked t (ftr (σ n)) = pushed_of t (ftr (σ m)) ++ [i]).
Proof.
  destruct (call_over t n) as (m & Hm & Hq & H). exists m. split; [done|]. split; [by apply pushed_idle|]. tauto.
Qed.

(** ** A worker that waits, and whose thread always comes back *)
Section served.
Context (Hwait : wait = true) (Hnot : ∀ n, fterm (σ n) = false).
Context (Hback : ∀ n, fpc (σ n) worker = TUser → ∃ m, n ≤ m ∧ fpc (σ m) worker = TTest).
Lemma wait_at n : fwait (σ n) = true.
Proof.
  rewrite (freach_wait _ _ (reach_at n)). done.
Qed.
Lemma stack_other s s' u : step u s s' → u ≠ worker → fstack s' = fstack s.
Proof. intros Hs Hu. by destruct Hs; simpl; rewrite ?notify_stack. Qed.
Lemma stack_stays n m : n ≤ m → (∀ k, n ≤ k < m → who k ≠ Some worker) → fstack (σ m) = fstack (σ n).
Proof.
  intros Hm. induction Hm as [|m Hm IH]; [done|]. intros H. rewrite <-IH by (intros; apply H; lia).
  pose proof (x_step _ _ _ Hx m) as Hs. destruct (who m) as [u|] eqn:E; [|by rewrite Hs].
  eapply stack_other; [done|]. intros ->. by apply (H m ltac:(lia)).
Qed.
Definition young (s : fifo P) : Prop := ∃ n fs, fstack s = Frame n 0 None :: fs.
Lemma outside_step s s' : step worker s s' → outside (fpc s worker) = true →
  outside (fpc s' worker) = true ∧ length (fstack s') ≤ length (fstack s) ∨
  fpc s' worker = TTest ∧ (length (fstack s') ≤ length (fstack s) ∨ young s').
Proof.
  intros Hs Ho. remember (worker : tid) as w eqn:Ew in Hs. destruct Hs; subst; simpl; rewrite ?set_pc_eq, ?notify_stack;
    repeat match goal with H : fpc s 0 = _ |- _ => rewrite H in *; clear H end; simpl in *; try done; auto.
  - right. split; [done|]. right. by eexists _, _.
  - right. split; [done|]. left. rewrite H0. simpl. lia.
  - left. split; [done|]. rewrite H0. simpl. lia.
Qed.
Lemma comes_back d n : outside (fpc (σ n) worker) = true → length (fstack (σ n)) ≤ d →
  ∃ m, n ≤ m ∧ fpc (σ m) worker = TTest ∧ (length (fstack (σ m)) ≤ d ∨ young (σ m)).
Proof.
  intros Ho Hd. assert (∃ m, n ≤ m ∧ fpc (σ m) worker = TTest) as (m & Hm & Hp).
  { destruct (queueing (fpc (σ n) worker)) eqn:E.
    - destruct (call_ends worker n E) as (k & Hk & H). destruct (Hback k H) as (m & ? & ?). exists m. split; [lia|done].
    - apply Hback. by destruct (fpc (σ n) worker). }
  remember (m - n) as x eqn:Hxm. revert n Hm Ho Hd Hxm. induction x as [|x IH]; intros n Hm Ho Hd Hxm.
  { assert (n = m) as -> by lia. by rewrite Hp in Ho. }
  pose proof (x_step _ _ _ Hx n) as Hs.
  assert (outside (fpc (σ (S n)) worker) = true → length (fstack (σ (S n))) ≤ length (fstack (σ n)) →
    ∃ m, n ≤ m ∧ fpc (σ m) worker = TTest ∧ (length (fstack (σ m)) ≤ d ∨ young (σ m))) as Hgo.
  { intros G1 G2. destruct (IH (S n)) as (m' & ? & ?); [lia|done|lia|lia|]. exists m'. split; [lia|done]. }
  destruct (who n) as [u|] eqn:E; [|rewrite Hs in *; by apply Hgo].
  destruct (decide (u = worker)) as [->|Hu].
  - destruct (outside_step _ _ Hs Ho) as [[G1 G2]|[G1 G2]]; [by apply Hgo|].
    exists (S n). split; [lia|]. split; [done|]. destruct G2; [left; lia|by right].
  - assert (fpc (σ (S n)) worker = fpc (σ n) worker) as Ep.
    { eapply step_other; [done|done|]. intros Ew. by rewrite Ew in Ho. }
    apply Hgo; [by rewrite Ep|]. by rewrite (stack_other _ _ _ Hs Hu).
Qed.
Lemma looks_next n : looking (fpc (σ n) worker) = true ∨ outside (fpc (σ n) worker) = true ∨ fpc (σ n) worker = TTest.
Proof.
  pose proof (inv_at n) as I. destruct (fpc (σ n) worker) as [| | | | | |[r|]| | | | | | | | |[r|]] eqn:E; simpl; auto.
  - destruct (i_dry _ I) as [H _]; [auto|]. by rewrite wait_at in H.
  - exfalso. destruct (goes_on worker n) as (k & Hk & Hs & Ep & _); [by rewrite E|by rewrite E|]. rewrite E in Ep.
    pose proof (Hnot (S k)) as Hn. remember (worker : tid) as w eqn:Ew in Hs. destruct Hs; subst; congruence || done.
  - destruct (i_dry _ I) as [H _]; [auto|]. by rewrite wait_at in H.
Qed.
Lemma test_looks d n : fpc (σ n) worker = TTest → length (fstack (σ n)) ≤ d ∨ young (σ n) →
  ∃ m, n ≤ m ∧ looking (fpc (σ m) worker) = true.
Proof.
  revert n. induction d as [|d IH]; intros n Hp Hd.
  all: destruct (goes_on worker n) as (k & Hk & Hs & Ep & _ & Hno); [by rewrite Hp|by rewrite Hp|]; rewrite Hp in Ep;
    pose proof (stack_stays n k Hk Hno) as Est; pose proof (Hnot k) as Hn.
  all: assert (looking (fpc (σ (S k)) worker) = true ∨ fpc (σ (S k)) worker = TUser ∧ ∃ f, fstack (σ k) = f :: fstack (σ (S k)) ∧ go_on (σ k) f = false) as Hc
    by (remember (worker : tid) as w eqn:Ew in Hs; destruct Hs; subst; try congruence; simpl; rewrite set_pc_eq; eauto).
  all: destruct Hc as [Hc|(Hu & f & Ef & Hg)]; [exists (S k); split; [lia|done]|].
  all: assert (¬ young (σ n)) as Hy by (intros (x & fs & Ey); rewrite Est, Ey in Ef; injection Ef as <- _;
    unfold go_on in Hg; rewrite Hn in Hg; simpl in Hg; destruct x; simpl in Hg; done).
  all: destruct Hd as [Hd|Hd]; [|done]; rewrite <-Est, Ef in Hd; simpl in Hd; try lia.
  destruct (comes_back d (S k)) as (m & Hm & G1 & G2); [by rewrite Hu|lia|].
  destruct (IH m G1 G2) as (m' & ? & ?). exists m'. split; [lia|done].
Qed.
Lemma looks_again n : ∃ m, n ≤ m ∧ looking (fpc (σ m) worker) = true.
Proof.
  destruct (looks_next n) as [H|[H|H]]; [by exists n|..].
  - destruct (comes_back _ n H (le_n _)) as (m & Hm & G1 & G2). destruct (test_looks _ m G1 G2) as (m' & ? & ?).
    exists m'. split; [lia|done].
  - apply (test_looks (length (fstack (σ n))) n H). by left.
Qed.
End served.

Context (Hlook : ∀ n, ∃ m, n ≤ m ∧ looking (fpc (σ m) worker) = true).
Lemma eventually j n : j ≤ length (pushed (ftr (σ n))) → ∃ m, n ≤ m ∧ j ≤ length (started (ftr (σ m))).
Proof.
  intros Hj. remember (j - length (started (ftr (σ n)))) as d eqn:Hd. revert n Hj Hd.
  induction (lt_wf d) as [d _ IH]. intros n Hj Hd.
  destruct (Hlook n) as (m & Hm & Hl). destruct (trace_grows n m Hm) as [l El].
  destruct (decide (j ≤ length (started (ftr (σ m))))) as [|Hlt]; [by exists m|].
  assert (j ≤ length (pushed (ftr (σ m)))) as Hjm.
  { rewrite El, pushed_app, app_length. lia. }
  pose proof (i_fifo _ (inv_at m)) as Hf.
  destruct (inhand (fpc (σ m) worker) ++ fqueue (σ m)) as [|i q] eqn:E.
  { rewrite Hf, app_nil_r in Hjm. lia. }
  destruct (item_called m i q Hl E) as (m2 & Hm2 & _ & H2).
  destruct (trace_grows m m2 ltac:(lia)) as [l2 El2].
  assert (length (started (ftr (σ n))) ≤ length (started (ftr (σ m)))) as Hle.
  { rewrite El, started_app, app_length. lia. }
  assert (length (started (ftr (σ m2))) = S (length (started (ftr (σ m))))) as Hl2 by (rewrite H2, app_length; simpl; lia).
  destruct (IH (j - length (started (ftr (σ m2)))) ltac:(lia) m2) as (m3 & Hm3 & H3); [|done|exists m3; split; [lia|done]].
  rewrite El2, pushed_app, app_length. lia.
Qed.
Lemma all_called n : ∃ m, n ≤ m ∧ pushed (ftr (σ n)) `prefix_of` started (ftr (σ m)).
Proof.
  destruct (eventually (length (pushed (ftr (σ n)))) n) as (m & Hm & H); [done|]. exists m. split; [done|].
  destruct (trace_grows n m Hm) as [l El]. pose proof (i_fifo _ (inv_at m)) as Hf. rewrite El, pushed_app, <-El in Hf.
  rewrite <-(take_drop (length (pushed (ftr (σ n)))) (started (ftr (σ m)))) in Hf |- *.
  rewrite <-app_assoc in Hf. apply app_inj_1 in Hf as [Hf _]; [eexists; f_equal; by symmetry|].
  rewrite take_length. lia.
Qed.
Lemma pushed_of_sublist t (l : list (fev P)) : pushed_of t l `sublist_of` pushed l.
Proof.
  unfold pushed_of, pushed. induction (pushed_by l) as [|x l' IH]; [done|]. rewrite filter_cons. simpl.
  case_decide; simpl; by constructor.
Qed.
Lemma asked_called t n : ∃ m, n ≤ m ∧
  (asked t (ftr (σ n)) `sublist_of` started (ftr (σ m)) ∨
   ∃ l i k, asked t (ftr (σ n)) = l ++ [i] ∧ l `sublist_of` started (ftr (σ m)) ∧
     n < k ≤ m ∧ last (ftr (σ k)) = Some (FFail t i)).
Proof.
  destruct (call_over t n) as (m & Hm & _ & H).
  destruct (all_called m) as (k & Hk & [l Hl]). exists k. split; [lia|].
  assert (pushed_of t (ftr (σ m)) `sublist_of` started (ftr (σ k))) as Hsub
    by (rewrite Hl; apply sublist_inserts_r, pushed_of_sublist).
  destruct H as [<-|(Hlt & i & H1 & H2)]; [by left|right]. exists (pushed_of t (ftr (σ m))), i, m. auto.
Qed.
End live.
