(** * C34-C38: [fifo_worker] under all interleavings

    [freach wait s]: [s] is reached by some interleaving of any number of threads making any calls, on a worker
    constructed with [waitOnEmptyQueue = wait].  What happened is [ftr s]. *)
From Verif Require Import FifoInv FifoDemo.

(** ** C34 *)

(** Work items are called in the order in which they entered the queue, none is skipped or called twice. *)
Theorem C34_order {P} (wait : bool) (s : fifo P) :
  freach wait s → started (ftr s) `prefix_of` pushed (ftr s).
Proof. intros Hr%freach_inv. rewrite (i_fifo s Hr). by eexists. Qed.
Print Assumptions C34_order.

(** The items a thread queues enter the queue in the order of its calls, each exactly once, and before the call
    returns. *)
Theorem C34_thread {P} (wait : bool) (s : fifo P) (t : tid) :
  freach wait s →
  pushed_of t (ftr s) `prefix_of` asked t (ftr s) ∧
  answered t (ftr s) ≤ length (pushed_of t (ftr s)) ∧
  length (asked t (ftr s)) ≤ S (answered t (ftr s)).
Proof.
  intros Hr%freach_inv. pose proof (i_ask s Hr t) as Ha. pose proof (i_ans s Hr t) as Hn.
  split; [rewrite Ha; by eexists|].
  rewrite Ha, app_length in Hn. rewrite Ha, app_length.
  destruct (fpc s t); simpl in *; lia.
Qed.
Print Assumptions C34_thread.

(** Nothing is lost: while the worker is outside operator(), or executes an item, what entered the queue and was
    not called yet is in the queue, in order. *)
Theorem C34_kept {P} (wait : bool) (s : fifo P) :
  freach wait s → fpc s worker = TUser → pushed (ftr s) = started (ftr s) ++ fqueue s.
Proof. intros Hr%freach_inv Hu. rewrite (i_fifo s Hr), Hu. done. Qed.
Print Assumptions C34_kept.

(** A call of queue_work_item() (or terminate()) puts exactly its item into the queue and then returns, or it throws and puts
    nothing into the queue; the thread can then make further calls. *)
Lemma calls_inv {P} (wait : bool) (s : fifo P) : freach wait s → ∀ t,
  ∃ l p, filter (call_by t) (ftr s) = l ++ p ∧ calls t l ∧
    match fpc s t with
    | TQLock i | TQPush i => p = [FCall t i]
    | TQNotify | TQUnlock => ∃ i, p = [FCall t i; FPush t i]
    | _ => p = []
    end.
Proof.
  induction 1 as [|u s s' Hr IH Hs]; intros t; [exists [], []; split_and!; [done|constructor|done]|].
  destruct (IH t) as (l & p & Hf & Hc & Hp).
  assert (∀ e : fev P, filter (call_by t) [e] = if decide (call_by t e) then [e] else []) as Hone.
  { intros e. by rewrite filter_cons, filter_nil. }
  destruct (decide (u = t)) as [->|Hu].
  - destruct Hs; unfold goto; cbn [fpc ftr with_mtx with_queue with_stack with_term] in *; rewrite set_pc_eq;
      rewrite ?notify_tr, ?app_nil_r, ?filter_app, ?Hone, ?Hf; cbn [call_by];
      repeat match goal with H : fpc s _ = _ |- _ => rewrite H in Hp; clear H end;
      try rewrite decide_True by done; try rewrite (decide_False (P:=False)) by tauto; rewrite ?app_nil_r;
      try (exists l, p; split_and!; done).
    + exists l, [FCall t i]. subst. by rewrite app_nil_r.
    + subst. exists l, [FCall t i; FPush t i]. rewrite <-app_assoc. eauto.
    + subst. exists (l ++ [FCall t i; FFail t i]), []. rewrite <-app_assoc, app_nil_r. split_and!; [done|by constructor|done].
    + destruct Hp as [i ->]. exists (l ++ [FCall t i; FPush t i; FCallRet t]), []. rewrite <-app_assoc, app_nil_r.
      split_and!; [done|by constructor|done].
  - exists l, p. split_and!; [|done|].
    + rewrite <-Hf. destruct Hs; unfold goto; cbn [ftr with_mtx with_queue with_stack with_term];
        rewrite ?notify_tr, ?app_nil_r, ?filter_app, ?Hone; cbn [call_by]; try rewrite decide_False by (done || tauto);
        by rewrite ?app_nil_r.
    + destruct Hs; unfold goto; cbn [fpc with_mtx with_queue with_stack with_term]; rewrite set_pc_ne by done; try done.
      rewrite notify_pc. case_decide; [subst|done]. by destruct (fpc s 0).
Qed.
Theorem C34_calls {P} (wait : bool) (s : fifo P) (t : tid) :
  freach wait s → fpc s t = TUser → calls t (filter (call_by t) (ftr s)).
Proof.
  intros Hr Hu. destruct (calls_inv _ _ Hr t) as (l & p & -> & Hc & Hp). rewrite Hu in Hp. by rewrite Hp, app_nil_r.
Qed.
Print Assumptions C34_calls.
Definition full_end : fifo nat := Eval vm_compute in default (fifo_init true) (play full_day (fifo_init true)).
Lemma full_played : play full_day (fifo_init true) = Some full_end.
Proof. vm_compute. reflexivity. Qed.
Example C34_calls_example :
  ∃ s : fifo nat, freach true s ∧ fpc s 1 = TUser ∧
    filter (call_by 1) (ftr s) = [FCall 1 (IUser 7); FPush 1 (IUser 7); FCallRet 1; FCall 1 (IUser 8); FFail 1 (IUser 8);
      FCall 1 (IUser 9); FPush 1 (IUser 9); FCallRet 1] ∧
    asked 1 (ftr s) = [IUser 7; IUser 9] ∧ asked 0 (ftr s) = [] ∧ started (ftr s) = [IUser 7; IUser 9].
Proof.
  exists full_end. split; [eapply play_sound; [exact full_played|constructor]|]. split_and!; vm_compute; reflexivity.
Qed.
Example C34_example :
  ∃ s : fifo nat, freach true s ∧ started (ftr s) = [IUser 7; IUser 8; IUser 9; ITerm] ∧
    asked 1 (ftr s) = [IUser 7; ITerm] ∧ asked 2 (ftr s) = [IUser 8] ∧ asked 0 (ftr s) = [IUser 9].
Proof. destruct busy_day_ok as (s & Hr & Ht). exists s. by rewrite Ht. Qed.
Example C34_kept_example :
  ∃ s : fifo nat, freach true s ∧ fpc s worker = TUser ∧ fqueue s = [IUser 8].
Proof.
  destruct (played_fifo (P:=nat) true ([ARun 0; ALib 0 5] ++ queues 1 (IUser 7) ++ queues 2 (IUser 8) ++ [ALib 0 5])
    (λ s, match fpc s 0 with TUser => bool_decide (fqueue s = [IUser 8]) | _ => false end)) as (s & Hr & HC); [by vm_compute|].
  exists s. split; [done|]. destruct (fpc s 0); try done. by apply bool_decide_eq_true in HC.
Qed.

(** ** C35 *)

(** If the worker is blocked and the queue is not empty then some thread is about to notify it, and that does wake
    it. *)
Theorem C35_no_lost_wakeup {P} (wait : bool) (s : fifo P) :
  freach wait s → fpc s worker = TDWait → fqueue s ≠ [] →
  ∃ t, fpc s t = TQNotify ∧ ∀ s', step t s s' → fpc s' worker = TDWoken.
Proof.
  intros Hr%freach_inv Hw Hq. destruct (i_wait s Hr Hw) as [|[t Ht]]; [done|]. exists t. split; [done|].
  assert (t ≠ 0) by (intros ->; congruence).
  intros s' Hs. destruct Hs; try congruence. simpl. rewrite set_pc_ne by done.
  rewrite notify_pc, Hw. done.
Qed.
Print Assumptions C35_no_lost_wakeup.

Example C35_example : ∃ s : fifo nat, freach true s ∧ fpc s worker = TDWait ∧ fqueue s ≠ [].
Proof.
  destruct (played_fifo (P:=nat) true [ARun 0; ALib 0 5; ACall 1 (IUser 7); ALib 1 2]
    (λ s, match fpc s 0, fqueue s with TDWait, _ :: _ => true | _, _ => false end)) as (s & Hr & HC); [by vm_compute|].
  exists s. split; [done|]. by destruct (fpc s 0), (fqueue s).
Qed.

(** What the library does on its own: no spurious wake-up, nothing that user code does. *)
Definition lib_step {P} (t : tid) (s s' : fifo P) : Prop :=
  step t s s' ∧ fpc s t ≠ TUser ∧ (t = worker → fpc s t ≠ TDWait).
Inductive lib_steps {P} : fifo P → fifo P → Prop :=
| lib_refl s : lib_steps s s
| lib_cons t s1 s2 s3 : lib_step t s1 s2 → lib_steps s2 s3 → lib_steps s1 s3.

Lemma lib_trans {P} (s1 s2 s3 : fifo P) : lib_steps s1 s2 → lib_steps s2 s3 → lib_steps s1 s3.
Proof. induction 1; eauto using lib_cons. Qed.
Lemma lib_reach {P} wait (s1 s2 : fifo P) : lib_steps s1 s2 → freach wait s1 → freach wait s2.
Proof. induction 1 as [|t s1 s2 s3 [Hs _] _ IH]; [done|]. intros. apply IH. by eapply freach_step. Qed.
Lemma lib_one {P} t (s1 s2 s3 : fifo P) : step t s1 s2 → fpc s1 t ≠ TUser → (t = worker → fpc s1 t ≠ TDWait) →
  lib_steps s2 s3 → lib_steps s1 s3.
Proof. intros. eapply lib_cons; [|done]. done. Qed.

(** The mutex is released by whoever else holds it, without any help. *)
Lemma lib_unlock {P} wait (s : fifo P) t : freach wait s → t ≠ worker → fmtx s = Some t →
  ∃ s', lib_steps s s' ∧ fmtx s' = None ∧ ftr s `prefix_of` ftr s' ∧ started (ftr s') = started (ftr s) ∧
    fqueue s `prefix_of` fqueue s' ∧ fstack s' = fstack s ∧ fterm s' = fterm s ∧
    (fpc s' worker = fpc s worker ∨ (fpc s worker = TDWait ∧ fpc s' worker = TDWoken)).
Proof.
  intros Hr Ht Hm. pose proof (freach_inv _ _ Hr) as I.
  assert (∀ s : fifo P, freach wait s → fpc s t = TQUnlock →
    ∃ s', lib_steps s s' ∧ fmtx s' = None ∧ ftr s `prefix_of` ftr s' ∧ started (ftr s') = started (ftr s) ∧
      fqueue s' = fqueue s ∧ fstack s' = fstack s ∧ fterm s' = fterm s ∧ fpc s' worker = fpc s worker) as HU.
  { intros s1 _ Hu. eexists. split; [eapply lib_one; [by apply SQUnlock|congruence|done|apply lib_refl]|].
    simpl. split; [done|]. split; [by eexists|]. rewrite started_app. simpl. rewrite app_nil_r.
    rewrite set_pc_ne by done. done. }
  assert (∀ s : fifo P, freach wait s → fpc s t = TQNotify →
    ∃ s', lib_steps s s' ∧ fmtx s' = None ∧ ftr s `prefix_of` ftr s' ∧ started (ftr s') = started (ftr s) ∧
      fqueue s' = fqueue s ∧ fstack s' = fstack s ∧ fterm s' = fterm s ∧
      (fpc s' worker = fpc s worker ∨ (fpc s worker = TDWait ∧ fpc s' worker = TDWoken))) as HN.
  { intros s1 Hr1 Hn. destruct (HU (goto (notify s1) t TQUnlock [])) as (s' & Hl & H1 & H2 & H3 & H4 & H5 & H6 & H7).
    - eapply freach_step; [done|by apply SQNotify].
    - simpl. apply set_pc_eq.
    - exists s'. split; [eapply lib_one; [by apply SQNotify|congruence|done|done]|].
      simpl in *. rewrite app_nil_r, notify_tr in *. rewrite notify_queue, notify_stack, notify_term in *.
      do 6 (split; [done|]). rewrite H7, set_pc_ne by done. rewrite notify_pc. rewrite decide_True by done.
      destruct (fpc s1 0); auto. }
  pose proof (proj1 (i_mtx s I t) Hm) as Hh. pose proof (i_prod s I t Ht) as Ho.
  destruct (fpc s t) eqn:E; simpl in *; try done.
  - edestruct (HN (goto (with_queue s (fqueue s ++ [i])) t TQNotify [FPush t i]))
      as (s' & Hl & H1 & H2 & H3 & H4 & H5 & H6 & H7).
    { eapply freach_step; [done|by apply SQPush]. }
    { simpl. apply set_pc_eq. }
    exists s'. split; [eapply lib_one; [by apply SQPush|congruence|done|done]|].
    simpl in *. rewrite set_pc_ne in H7 by done. rewrite started_app in H3. simpl in H3. rewrite app_nil_r in H3.
    split; [done|]. split; [etrans; [|done]; by eexists|]. split; [done|]. split; [rewrite H4; by eexists|]. done.
  - destruct (HN s Hr E) as (s' & Hl & H1 & H2 & H3 & H4 & H5 & H6 & H7).
    exists s'. do 4 (split; [done|]). split; [by rewrite H4|]. done.
  - destruct (HU s Hr E) as (s' & Hl & H1 & H2 & H3 & H4 & H5 & H6 & H7).
    exists s'. do 4 (split; [done|]). split; [by rewrite H4|]. rewrite H7. auto.
Qed.

(** From every point of operator() at which an item is waiting or has been fetched, the library alone gets to
    calling it. *)
Definition calls_next {P} (s : fifo P) (i : item P) : Prop :=
  ∃ s', lib_steps s s' ∧ last (ftr s') = Some (FStart i) ∧ started (ftr s') = started (ftr s) ++ [i].

Lemma calls_next_step {P} (s s' : fifo P) (i : item P) :
  step worker s s' → fpc s worker ≠ TUser → fpc s worker ≠ TDWait → ftr s' = ftr s ++ [] →
  calls_next s' i → calls_next s i.
Proof.
  intros Hs Hu Hw He (s2 & Hl & Hlast & Hst). rewrite He, app_nil_r in Hst. exists s2. split; [|done].
  by eapply lib_one.
Qed.

Lemma next_got {P} (s : fifo P) i f fs :
  fstack s = f :: fs → fpc s worker = TGot (Some i) → calls_next s i.
Proof.
  intros Hf Hp. destruct i as [p|].
  - eexists. split; [eapply lib_one; [by eapply SGotUser|congruence|congruence|apply lib_refl]|]. simpl.
    rewrite last_snoc, started_app. done.
  - eexists. split; [eapply lib_one; [by eapply SGotTerm|congruence|congruence|apply lib_refl]|]. simpl.
    rewrite last_snoc, started_app. done.
Qed.
Lemma next_unlock {P} (s : fifo P) i f fs :
  fstack s = f :: fs → fpc s worker = TDUnlock (Some i) → calls_next s i.
Proof.
  intros Hf Hp. eapply calls_next_step; [by apply SDUnlock|congruence|congruence|done|].
  eapply next_got; [done|]. by apply set_pc_eq.
Qed.
Lemma next_pop {P} (s : fifo P) i q f fs :
  fstack s = f :: fs → fqueue s = i :: q → fpc s worker = TDPop → calls_next s i.
Proof.
  intros Hf Hq Hp. eapply calls_next_step; [by eapply SDPop|congruence|congruence|done|].
  eapply next_unlock; [done|]. by apply set_pc_eq.
Qed.
Lemma next_while {P} (s : fifo P) i q f fs :
  fstack s = f :: fs → fqueue s = i :: q → fpc s worker = TDWhile → calls_next s i.
Proof.
  intros Hf Hq Hp. eapply calls_next_step; [eapply SDLeave; [done|congruence]|congruence|congruence|done|].
  eapply next_pop; [done|done|]. by apply set_pc_eq.
Qed.
Lemma next_check {P} (s : fifo P) i q f fs :
  fstack s = f :: fs → fqueue s = i :: q → fpc s worker = TDCheck → calls_next s i.
Proof.
  intros Hf Hq Hp. eapply calls_next_step; [eapply SDCheck; [done|]|congruence|congruence|done|].
  { rewrite Hq. by rewrite andb_comm. }
  eapply next_while; [done|done|]. by apply set_pc_eq.
Qed.
Lemma next_lock {P} (s : fifo P) i q f fs :
  fstack s = f :: fs → fqueue s = i :: q → fmtx s = None →
  fpc s worker = TDLock ∨ fpc s worker = TDWoken → calls_next s i.
Proof.
  intros Hf Hq Hm [Hp|Hp].
  - eapply calls_next_step; [by eapply SDLock|congruence|congruence|done|].
    eapply next_check; [done|done|]. by apply set_pc_eq.
  - eapply calls_next_step; [by eapply SDWoken|congruence|congruence|done|].
    eapply next_while; [done|done|]. by apply set_pc_eq.
Qed.

Theorem C35_progress {P} (wait : bool) (s : fifo P) (i : item P) (q : list (item P)) :
  freach wait s → dequeueing (fpc s worker) = true → inhand (fpc s worker) ++ fqueue s = i :: q →
  fpc s worker ≠ TDUnlock None → fpc s worker ≠ TGot None →
  ∃ s', lib_steps s s' ∧ last (ftr s') = Some (FStart i) ∧ started (ftr s') = started (ftr s) ++ [i].
Proof.
  intros Hr Hd Hq Hn1 Hn2. pose proof (freach_inv _ _ Hr) as I.
  assert (∃ f fs, fstack s = f :: fs) as (f & fs & Hf).
  { pose proof (i_stack s I) as Is. unfold stack_ok in Is. destruct (fpc s 0); simpl in *; try done; naive_solver. }
  change (calls_next s i).
  assert (fpc s worker = TDLock ∨ fpc s worker = TDWoken ∨ fpc s worker = TDWait → calls_next s i) as HL.
  { intros Hp. assert (fqueue s = i :: q) as Hq' by (destruct (fpc s 0); simpl in *; naive_solver).
    destruct (fmtx s) as [t|] eqn:Hm.
    - assert (t ≠ worker) as Ht.
      { intros ->. apply (i_mtx s I) in Hm. destruct (fpc s 0); naive_solver. }
      destruct (lib_unlock _ s t Hr Ht Hm) as (s' & Hl & H1 & _ & H3 & [k H4] & H5 & _ & H7).
      rewrite Hq' in H4. simpl in H4.
      destruct (next_lock s' i (q ++ k) f fs) as (s2 & Hl2 & Hlast & Hst).
      + by rewrite H5.
      + done.
      + done.
      + pose proof (i_wait _ (freach_inv _ _ (lib_reach _ _ _ Hl Hr))) as Iw.
        pose proof (i_mtx _ (freach_inv _ _ (lib_reach _ _ _ Hl Hr))) as Im.
        destruct H7 as [H7|[_ H7]]; [|by right]. rewrite H7 in *.
        destruct Hp as [Hp|[Hp|Hp]]; [by left|by right|].
        destruct (Iw Hp) as [?|[u Hu]]; [congruence|].
        assert (fmtx s' = Some u) by (apply Im; by rewrite Hu). congruence.
      + exists s2. split; [by eapply lib_trans|]. by rewrite H3 in Hst.
    - destruct Hp as [Hp|[Hp|Hp]]; [eapply next_lock; eauto..|].
      destruct (i_wait s I Hp) as [?|[u Hu]]; [congruence|].
      assert (fmtx s = Some u) by (apply (i_mtx s I); by rewrite Hu). congruence. }
  destruct (fpc s worker) as [| | | | | |[j|]| | | | | | | | |[j|]] eqn:E; simpl in *; try done; try naive_solver.
  - simplify_eq. by eapply next_got.
  - by eapply next_check.
  - by eapply next_while.
  - by rewrite (i_sleep s I E) in Hq.
  - by eapply next_pop.
  - simplify_eq. by eapply next_unlock.
Qed.
Print Assumptions C35_progress.

Example C35_progress_example : ∃ s : fifo nat, freach true s ∧ fpc s worker = TDWait ∧
  dequeueing (fpc s worker) = true ∧ ∃ i q, inhand (fpc s worker) ++ fqueue s = i :: q.
Proof.
  destruct C35_example as (s & Hr & Hw & Hq). exists s. rewrite Hw. do 3 (split; [done|]).
  destruct (fqueue s) as [|i q]; [done|]. by exists i, q.
Qed.

(** ** C36 *)

(** When operator()(n) returns it returns the number of items it executed, at most [n] if [n] is not 0, and it
    stops earlier only if the worker is terminated or if it does not wait and found the queue empty. *)
Theorem C36_count {P} (wait : bool) (s : fifo P) (l1 l2 : list (fev P)) (k : nat) :
  freach wait s → ftr s = l1 ++ FRunRet k :: l2 →
  ∃ n fs, frames l1 = Frame n k None :: fs ∧ (n = 0 ∨ k ≤ n) ∧
    ((n ≠ 0 ∧ k = n) ∨ ITerm ∈ started l1 ∨ (wait = false ∧ ran_dry l1)).
Proof.
  intros Hr Ht. destruct (observed _ _ _ _ _ Hr Ht) as (t & s1 & s2 & Hr1 & <- & Hs & E).
  pose proof (freach_inv _ _ Hr1) as I. pose proof (i_stack _ I) as Is. rewrite (i_frames _ I).
  pose proof (i_term _ I) as It. pose proof (i_dry _ I) as Id. pose proof (freach_wait _ _ Hr1) as Hw. clear I.
  unfold stack_ok in Is.
  destruct Hs as [| | | | | | | | |s1 f fs Hp Hf Hg|s1 f fs Hp Hf| | | | | | | | | | | | | | | |]; simpl in E;
    rewrite ?notify_tr, ?app_nil_r in E;
    try (apply app_inj_tail in E as [_ [=]]); try (by apply (f_equal length) in E; rewrite app_length in E; simpl in E; lia);
    subst; rewrite Hp in *; simpl in *; destruct Is as (f' & fs' & Hf' & _ & Hi & Hb);
    rewrite Hf in Hf'; injection Hf' as <- <-; rewrite Hf; destruct f as [n k it]; simpl in *; subst;
    exists n, fs; (split; [done|]).
  - split; [done|]. unfold go_on in Hg. simpl in Hg. destruct (fterm s1).
    + right; left. apply ended_elem, It.
    + left. simpl in Hg. apply orb_false_iff in Hg as [Hn%Nat.eqb_neq Hk%Nat.ltb_ge].
      split; [done|]. unfold bounded in Hb. simpl in Hb. lia.
  - split; [destruct Hb; [by left|right; simpl in *; lia]|]. right; right. apply Id. auto.
Qed.
Print Assumptions C36_count.

(** A worker constructed as non-waiting never blocks. *)
Theorem C36_no_block {P} (s : fifo P) : freach false s → fpc s worker ≠ TDWait.
Proof.
  intros Hr Hp. pose proof (freach_inv _ _ Hr) as I. pose proof (freach_wait _ _ Hr) as Hw.
  destruct (i_block _ I) as [?|[? ?]]; [by rewrite Hp|congruence|congruence].
Qed.
Print Assumptions C36_no_block.

Example C36_example :
  ∃ s : fifo nat, freach true s ∧ ftr s = take 18 busy_trace ++ FRunRet 1 :: drop 19 busy_trace.
Proof. destruct busy_day_ok as (s & Hr & Ht). exists s. by rewrite Ht. Qed.
Example C36_dry_example :
  ∃ s : fifo nat, freach false s ∧ ftr s = take 9 dry_trace ++ FRunRet 1 :: [] ∧ started (ftr s) ≠ pushed (ftr s).
Proof. destruct dry_day_ok as (s & Hr & Ht). exists s. by rewrite Ht. Qed.

(** ** C37 *)

(** The termination item is called in its turn: what entered the queue before it was called before it; nothing
    is called after it. *)
Theorem C37_order {P} (wait : bool) (s : fifo P) :
  freach wait s → ITerm ∈ started (ftr s) →
  ∃ l r, started (ftr s) = l ++ [ITerm] ∧ pushed (ftr s) = l ++ ITerm :: r ∧ ITerm ∉ l.
Proof.
  intros Hr Hi. pose proof (freach_inv _ _ Hr) as I.
  assert (ended (started (ftr s))) as (l & Hl & Hn).
  { pose proof (i_term _ I) as It. destruct (fterm s); [by apply It|]. by destruct (fpc s 0). }
  exists l. rewrite (i_fifo _ I), Hl. eexists. split; [done|]. by rewrite <- app_assoc.
Qed.
Print Assumptions C37_order.

(** terminated() is true exactly if the termination item has been executed. *)
Theorem C37_flag {P} (wait : bool) (s : fifo P) (l1 l2 : list (fev P)) (b : bool) :
  freach wait s → ftr s = l1 ++ FAsk b :: l2 → b = true ↔ ITerm ∈ started l1.
Proof.
  intros Hr Ht. destruct (observed _ _ _ _ _ Hr Ht) as (t & s1 & s2 & Hr1 & <- & Hs & E).
  pose proof (freach_inv _ _ Hr1) as I. pose proof (i_term _ I) as It. clear I.
  destruct Hs as [| | | | | | | | | | | | | | | |s1 Hp| | | | | | | | | |]; simpl in E;
    rewrite ?notify_tr, ?app_nil_r in E;
    try (apply app_inj_tail in E as [_ [=]]); try (by apply (f_equal length) in E; rewrite app_length in E; simpl in E; lia).
  subst. rewrite Hp in It. destruct (fterm s1); [|done].
  split; [|done]. intros _. by apply ended_elem, It.
Qed.
Print Assumptions C37_flag.

(** Once it has been executed no call of operator() executes anything. *)
Theorem C37_stops {P} (wait : bool) (s : fifo P) (l1 l2 : list (fev P)) :
  freach wait s → ftr s = l1 ++ l2 → ITerm ∈ started l1 → started l2 = [].
Proof.
  intros Hr Ht Hi. destruct (C37_order wait s Hr) as (l & r & Hl & _ & Hn).
  { rewrite Ht, started_app. apply elem_of_app. by left. }
  rewrite Ht, started_app in Hl.
  destruct (started l2) as [|x l3 _] eqn:E using rev_ind; [done|].
  rewrite app_assoc in Hl. apply app_inj_tail in Hl as [Hl _].
  exfalso. apply Hn. rewrite <- Hl. apply elem_of_app. by left.
Qed.
Print Assumptions C37_stops.

Example C37_example :
  ∃ s : fifo nat, freach true s ∧ ftr s = take 26 busy_trace ++ FAsk true :: [] ∧
    ITerm ∈ started (take 26 busy_trace) ∧
    ftr s = take 19 busy_trace ++ FAsk false :: drop 20 busy_trace ∧ ITerm ∉ started (take 19 busy_trace).
Proof.
  destruct busy_day_ok as (s & Hr & Ht). exists s. rewrite Ht. do 2 (split; [done|]).
  split; [simpl; set_solver|]. split; [done|]. simpl. set_solver.
Qed.

(** ** C38 *)

(** If an item throws, the call of operator() executing it is left.  What had entered the queue and was not called
    yet stays queued: later calls call it in order, before anything queued later. *)
Theorem C38_throw {P} (wait : bool) (s : fifo P) (l1 l2 : list (fev P)) :
  freach wait s → ftr s = l1 ++ FThrow :: l2 →
  ∃ n k i fs q, frames l1 = Frame n k (Some i) :: fs ∧ frames (l1 ++ [FThrow]) = fs ∧
    pushed l1 = started l1 ++ q ∧ started l2 `prefix_of` q ++ pushed l2.
Proof.
  intros Hr Ht. destruct (observed _ _ _ _ _ Hr Ht) as (t & s1 & s2 & Hr1 & E1 & Hs & E).
  pose proof (freach_inv _ _ Hr1) as I. pose proof (i_stack _ I) as Is. unfold stack_ok in Is.
  pose proof (i_fifo _ I) as Iq. pose proof (i_frames _ I) as Ifr.
  assert (fpc s1 worker = TUser ∧ fstack s1 ≠ []) as [Hp Hne].
  { destruct Hs; simpl in E; rewrite ?notify_tr, ?app_nil_r, E1 in E;
      try (apply app_inj_tail in E as [_ [=]]);
      try (by apply (f_equal length) in E; rewrite app_length in E; simpl in E; lia).
    split; congruence. }
  rewrite Hp in Is, Iq. simpl in *.
  destruct (fstack s1) as [|[n k it] fs] eqn:Hst; [done|].
  apply Forall_cons in Is as [[[i Hi] _] _]. simpl in Hi. subst it.
  exists n, k, i, fs, (fqueue s1). rewrite <- E1. rewrite frames_app, Ifr. simpl. do 3 (split; [done|]).
  pose proof (C34_order _ _ Hr) as Hpre. rewrite Ht, <- E1, started_app, pushed_app, Iq in Hpre. simpl in Hpre.
  rewrite <- app_assoc in Hpre. by apply prefix_app_inv in Hpre.
Qed.
Print Assumptions C38_throw.

(** What an item does that does not itself call operator(). *)
Definition calm {P} (e : fev P) : bool :=
  match e with
  | FRun _ | FStart _ | FItemRet | FThrow | FRunRet _ => false
  | _ => true
  end.

Lemma calm_started {P} (l : list (fev P)) : Forall (λ e, calm e = true) l → started l = [].
Proof. induction 1 as [|[] l H _ IH]; simpl in *; done. Qed.

(** Exactly the item that threw has been removed. *)
Theorem C38_removed {P} (wait : bool) (s : fifo P) (l0 lm l2 : list (fev P)) (i : item P) :
  freach wait s → ftr s = l0 ++ FStart i :: lm ++ FThrow :: l2 → Forall (λ e, calm e = true) lm →
  ∃ q, pushed l0 = started l0 ++ i :: q ∧ started l2 `prefix_of` q ++ pushed lm ++ pushed l2.
Proof.
  intros Hr Ht Hc.
  assert (started lm = []) as Hm by by apply calm_started.
  destruct (observed _ _ l0 _ _ Hr Ht) as (t & s1 & s2 & Hr1 & E1 & Hs & E).
  pose proof (freach_inv _ _ Hr1) as I. pose proof (i_fifo _ I) as Iq.
  assert (inhand (fpc s1 worker) = [i]) as Hp.
  { destruct Hs; simpl in E; rewrite ?notify_tr, ?app_nil_r, E1 in E;
      try (apply app_inj_tail in E as [_ [=]]);
      try (by apply (f_equal length) in E; rewrite app_length in E; simpl in E; lia); subst.
    - by rewrite H.
    - by rewrite H. }
  rewrite Hp, E1 in Iq. simpl in Iq. exists (fqueue s1). split; [done|].
  pose proof (C34_order _ _ Hr) as Hpre. rewrite Ht in Hpre. rewrite started_app, pushed_app, Iq in Hpre.
  simpl in Hpre. rewrite <- app_assoc in Hpre. apply prefix_app_inv in Hpre. simpl in Hpre.
  apply prefix_cons_inv_2 in Hpre.
  change (pushed (FStart i :: lm ++ FThrow :: l2)) with (pushed (lm ++ FThrow :: l2)) in Hpre.
  rewrite started_app, pushed_app, Hm in Hpre. done.
Qed.
Print Assumptions C38_removed.

Example C38_example :
  ∃ s : fifo nat, freach true s ∧
    ftr s = take 7 busy_trace ++ FStart (IUser 7) :: [FCall 0 (IUser 9); FPush 0 (IUser 9); FCallRet 0]
            ++ FThrow :: drop 12 busy_trace ∧
    pushed (take 7 busy_trace) = [IUser 7; IUser 8].
Proof. destruct busy_day_ok as (s & Hr & Ht). exists s. by rewrite Ht. Qed.
Example C38_nested_example :
  ∃ s : fifo nat, freach false s ∧ ftr s = take 17 nested_trace ++ FThrow :: [] ∧
    frames (take 17 nested_trace) = [Frame 0 1 (Some (IUser 9))].
Proof. destruct nested_day_ok as (s & Hr & Ht). exists s. by rewrite Ht. Qed.

(** ** C46 *)

(** The next statement of a thread touches workQueue_ (lines 86-87, 148, 153, 173-174). *)
Definition touches {P} (p : tpc P) : bool :=
  match p with TQPush _ | TDCheck | TDWhile | TDPop => true | _ => false end.
(** No two threads are ever about to touch the queue, nothing else changes it, and only the thread that calls operator()
    changes the flag that terminated() returns. *)
Theorem C46_exclusive {P} (wait : bool) (s : fifo P) : freach wait s →
  (∀ t u, touches (fpc s t) = true → touches (fpc s u) = true → t = u) ∧
  ∀ t s', step t s s' → (fqueue s' ≠ fqueue s → touches (fpc s t) = true) ∧ (fterm s' ≠ fterm s → t = worker).
Proof.
  intros Hr%freach_inv. split.
  - assert (∀ p : tpc P, touches p = true → holding p = true) as H by by intros [].
    intros t u Ht%H Hu%H. by eapply held.
  - intros t s' Hs. destruct Hs; simpl; rewrite ?notify_queue, ?notify_term;
      repeat match goal with H : fpc s _ = _ |- _ => rewrite H; clear H end; naive_solver.
Qed.
Print Assumptions C46_exclusive.
(** Two threads at once about to enter: one waits for the lock. *)
Example C46_exclusive_example : ∃ s : fifo nat, freach true s ∧ touches (fpc s 1) = true ∧ fpc s 2 = TQLock (IUser 8).
Proof.
  destruct (played_fifo (P:=nat) true [ACall 1 (IUser 7); ACall 2 (IUser 8); ALib 1 1]
    (λ s, touches (fpc s 1) && match fpc s 2 with TQLock (IUser 8) => true | _ => false end)) as (s & Hr & HC); [by vm_compute|].
  exists s. split; [done|]. apply andb_true_iff in HC as [? HC]. split; [done|].
  destruct (fpc s 2) as [|[[|[|[|[|[|[|[|[|[|]]]]]]]]]|]| | | | | | | | | | | | | |]; done.
Qed.

(** No thread holds the lock while it runs user code, so work items and clients may queue items. *)
Theorem C46_unlocked {P} (wait : bool) (s : fifo P) (t : tid) : freach wait s → fpc s t = TUser → fmtx s ≠ Some t.
Proof. intros Hr%freach_inv Ht Hm%(i_mtx s Hr). by rewrite Ht in Hm. Qed.
Print Assumptions C46_unlocked.

(** Whoever holds the lock releases it without any help; those who wait for it go on waiting. *)
Definition stay {P} (u : tid) (s s' : fifo P) : Prop := ∀ v i, v ≠ u → fpc s v = TQLock i →
  fpc s' v = TQLock i ∧ pushed_of v (ftr s') = pushed_of v (ftr s).
Lemma stay_goto {P} (s s0 : fifo P) u p l : fpc s0 = fpc s → ftr s0 = ftr s → Forall (λ x, x.1 = u) (pushed_by l) →
  stay u s (goto s0 u p l).
Proof.
  intros E Et Hl v i Hv Hp. simpl. rewrite E, set_pc_ne by done. split; [done|].
  rewrite pushed_of_app, Et. replace (pushed_of v l) with (@nil (item P)); [by rewrite app_nil_r|].
  unfold pushed_of. induction Hl as [|x l' Hx _ IH]; [done|]. rewrite filter_cons, decide_False by congruence. done.
Qed.
Lemma lib_release {P} wait (s : fifo P) u : freach wait s → fmtx s = Some u →
  ∃ s', lib_steps s s' ∧ fmtx s' = None ∧ stay u s s'.
Proof.
  intros Hr Hm. pose proof (freach_inv _ _ Hr) as I. pose proof (proj1 (i_mtx s I u) Hm) as Hh.
  assert (∀ s1 s2 : fifo P, step u s1 s2 → freach wait s1 → fpc s1 u ≠ TUser → (u = worker → fpc s1 u ≠ TDWait) →
    stay u s1 s2 → (freach wait s2 → ∃ s', lib_steps s2 s' ∧ fmtx s' = None ∧ stay u s2 s') →
    ∃ s', lib_steps s1 s' ∧ fmtx s' = None ∧ stay u s1 s') as Hstep.
  { intros s1 s2 Hs Hr1 H1 H2 Hst Hn. destruct Hn as (s' & Hl & Hm' & Hst'); [by eapply freach_step|].
    exists s'. split; [by eapply lib_one|]. split; [done|]. intros v i Hv Hp.
    destruct (Hst v i Hv Hp) as [Hp' E1]. destruct (Hst' v i Hv Hp') as [Hp'' E2]. split; [done|congruence]. }
  assert (∀ s : fifo P, fmtx s = None → ∃ s', lib_steps s s' ∧ fmtx s' = None ∧ stay u s s') as Hend.
  { intros s1 Hn. exists s1. split; [apply lib_refl|]. split; [done|]. by intros v. }
  assert (u ≠ worker → outside (fpc s u) = true) as Hout by apply (i_prod s I).
  assert (∀ s : fifo P, freach wait s → fpc s u = TQUnlock → ∃ s', lib_steps s s' ∧ fmtx s' = None ∧ stay u s s') as H1.
  { intros s1 Hr1 E. eapply Hstep; [by apply SQUnlock|done|congruence|congruence|apply stay_goto; [done|done|by repeat constructor]|].
    intros _. by apply Hend. }
  assert (∀ s : fifo P, freach wait s → fpc s u = TQNotify → ∃ s', lib_steps s s' ∧ fmtx s' = None ∧ stay u s s') as H2.
  { intros s1 Hr1 E. eapply Hstep; [by apply SQNotify|done|congruence|congruence| |].
    - intros v i Hv Hp. simpl. rewrite set_pc_ne by done. rewrite notify_pc, notify_tr, app_nil_r.
      case_decide; [subst|done]. by rewrite Hp.
    - intros Hr2. apply H1; [done|]. simpl. by rewrite set_pc_eq. }
  destruct (decide (u = worker)) as [->|Hu].
  2:{ specialize (Hout Hu). destruct (fpc s u) eqn:E; try done; try by auto.
      eapply Hstep; [by apply SQPush|done|congruence|congruence|apply stay_goto; [done|done|by repeat constructor]|].
      intros Hr2. apply H2; [done|]. simpl. by rewrite set_pc_eq. }
  assert (∀ (s : fifo P) r, freach wait s → fpc s 0 = TDUnlock r → ∃ s', lib_steps s s' ∧ fmtx s' = None ∧ stay 0 s s') as H3.
  { intros s1 r Hr1 E. eapply Hstep; [by eapply SDUnlock|done|congruence|congruence|apply stay_goto; [done|done|by repeat constructor]|].
    intros _. by apply Hend. }
  assert (∀ s : fifo P, freach wait s → fpc s 0 = TDPop → ∃ s', lib_steps s s' ∧ fmtx s' = None ∧ stay 0 s s') as H4.
  { intros s1 Hr1 E. destruct (fqueue s1) as [|i q] eqn:Eq; [by destruct (i_pop s1 (freach_inv _ _ Hr1))|].
    eapply Hstep; [by eapply SDPop|done|congruence|congruence|apply stay_goto; [done|done|by repeat constructor]|].
    intros Hr2. eapply H3; [done|]. simpl. by rewrite set_pc_eq. }
  assert (∀ s : fifo P, freach wait s → fpc s 0 = TDSleep → ∃ s', lib_steps s s' ∧ fmtx s' = None ∧ stay 0 s s') as H5.
  { intros s1 Hr1 E. eapply Hstep; [by eapply SDWait|done|congruence|congruence|apply stay_goto; [done|done|by repeat constructor]|].
    intros _. by apply Hend. }
  assert (∀ s : fifo P, freach wait s → fpc s 0 = TDWhile → ∃ s', lib_steps s s' ∧ fmtx s' = None ∧ stay 0 s s') as H6.
  { intros s1 Hr1 E. destruct (fqueue s1) as [|i q] eqn:Eq.
    - eapply Hstep; [by eapply SDEmpty|done|congruence|congruence|apply stay_goto; [done|done|by repeat constructor]|].
      intros Hr2. eapply H5; [done|]. simpl. by rewrite set_pc_eq.
    - eapply Hstep; [by eapply SDLeave; [done|congruence]|done|congruence|congruence|apply stay_goto; [done|done|by repeat constructor]|].
      intros Hr2. eapply H4; [done|]. simpl. by rewrite set_pc_eq. }
  destruct (fpc s 0) eqn:E; try done; try by eauto.
  - eapply Hstep; [by apply SQPush|done|congruence|congruence|apply stay_goto; [done|done|by repeat constructor]|].
    intros Hr2. apply H2; [done|]. simpl. by rewrite set_pc_eq.
  - destruct (negb (fwait s) && bool_decide (fqueue s = [])) eqn:Ec.
    + eapply Hstep; [by eapply SDCheckEmpty|done|congruence|congruence|apply stay_goto; [done|done|by repeat constructor]|].
      intros Hr2. eapply H3; [done|]. simpl. by rewrite set_pc_eq.
    + eapply Hstep; [by eapply SDCheck|done|congruence|congruence|apply stay_goto; [done|done|by repeat constructor]|].
      intros Hr2. eapply H6; [done|]. simpl. by rewrite set_pc_eq.
Qed.

(** A call of queue_work_item() or terminate(), wherever it comes from, can always return, with the item queued,
    without the help of user code. *)
Theorem C46_returns {P} (wait : bool) (s : fifo P) (t : tid) (i : item P) : freach wait s → fpc s t = TUser →
  ∃ s1 s2, step t s s1 ∧ ftr s1 = ftr s ++ [FCall t i] ∧ lib_steps s1 s2 ∧ fpc s2 t = TUser ∧
    last (ftr s2) = Some (FCallRet t) ∧ pushed_of t (ftr s2) = pushed_of t (ftr s) ++ [i].
Proof.
  intros Hr Ht. set (s1 := goto s t (TQLock i) [FCall t i]). exists s1.
  assert (step t s s1) as Hs1 by by apply SCall. assert (freach wait s1) as Hr1 by by eapply freach_step.
  assert (pushed_of t (ftr s1) = pushed_of t (ftr s)) as Hp1.
  { unfold s1. simpl. rewrite pushed_of_app. unfold pushed_of at 2. simpl. by rewrite app_nil_r. }
  assert (fpc s1 t = TQLock i) as E1 by apply set_pc_eq.
  assert (∃ s2, lib_steps s1 s2 ∧ fmtx s2 = None ∧ fpc s2 t = TQLock i ∧ pushed_of t (ftr s2) = pushed_of t (ftr s1))
    as (s2 & Hl2 & Hm2 & E2 & Hp2).
  { destruct (fmtx s1) as [u|] eqn:Em; [|exists s1; split; [apply lib_refl|done]].
    destruct (lib_release _ _ _ Hr1 Em) as (s2 & Hl & Hm & Hst). exists s2. split; [done|]. split; [done|].
    apply Hst; [|done]. intros <-. apply (i_mtx s1 (freach_inv _ _ Hr1)) in Em. by rewrite E1 in Em. }
  rewrite Hp1 in Hp2. clear Hp1 E1.
  set (s3 := goto (with_mtx s2 (Some t)) t (TQPush i) []).
  set (s4 := goto (with_queue s3 (fqueue s3 ++ [i])) t TQNotify [FPush t i]).
  set (s5 := goto (notify s4) t TQUnlock []).
  set (s6 := goto (with_mtx s5 None) t TUser [FCallRet t]).
  assert (fpc s3 t = TQPush i) as E3 by apply set_pc_eq. assert (fpc s4 t = TQNotify) as E4 by apply set_pc_eq.
  assert (fpc s5 t = TQUnlock) as E5 by apply set_pc_eq.
  exists s6. split; [done|]. split; [done|]. split; [|split; [apply set_pc_eq|]].
  - eapply lib_trans; [done|]. apply (lib_one t s2 s3); [by apply SQLock|congruence|congruence|].
    apply (lib_one t s3 s4); [by apply SQPush|congruence|congruence|].
    apply (lib_one t s4 s5); [by apply SQNotify|congruence|congruence|].
    apply (lib_one t s5 s6); [by apply SQUnlock|congruence|congruence|]. apply lib_refl.
  - split; [by apply last_snoc|]. unfold s6, s5, s4, s3. simpl. rewrite app_nil_r, notify_tr. simpl.
    rewrite !pushed_of_app, Hp2. unfold pushed_of. simpl. rewrite !app_nil_r. rewrite filter_cons, decide_True by done.
    done.
Qed.
Print Assumptions C46_returns.
(** A work item that queues an item while another thread is inside the critical section. *)
Example C46_returns_example : ∃ s : fifo nat, freach true s ∧ fpc s worker = TUser ∧ fstack s ≠ [] ∧ fmtx s = Some 2.
Proof.
  destruct (played_fifo (P:=nat) true (queues 1 (IUser 7) ++ [ARun 0; ALib 0 7; ACall 2 (IUser 8); ALib 2 1])
    (λ s, match fpc s 0, fstack s with TUser, _ :: _ => bool_decide (fmtx s = Some 2) | _, _ => false end))
    as (s & Hr & HC); [by vm_compute|].
  exists s. split; [done|]. destruct (fpc s 0), (fstack s); try done. by apply bool_decide_eq_true in HC.
Qed.
