(** * C56: [fifo_worker] under a fair scheduler

    [execution wait σ who]: an execution without end, of any number of threads making any calls; [σ n] is the state
    after [n] moments.  [fair σ who]: every thread that is inside the library and able to go on again and again goes
    on (a thread that waits for the lock gets it some time). *)
From stdpp Require Import gmap.
From Verif Require Import FifoLive FifoDemo PropsSched SchedInv.

(** ** C56 *)
(** Calls of queue_work_item() and terminate() return, and then their items have entered the queue: for every moment there is
    a later one when all calls that a thread had made have returned; or all but the last one, which threw because there was
    no memory for its item. *)
Theorem C56_call {P} (wait : bool) (σ : nat → fifo P) who n t :
  execution wait σ who → fair σ who →
  ∃ m, n ≤ m ∧ answered t (ftr (σ m)) = length (pushed_of t (ftr (σ m))) ∧
    (pushed_of t (ftr (σ m)) = asked t (ftr (σ n)) ∨
     ∃ i, last (ftr (σ m)) = Some (FFail t i) ∧ asked t (ftr (σ n)) = pushed_of t (ftr (σ m)) ++ [i]).
Proof. intros Hx Hf. exact (calls_end wait σ who Hx Hf t n). Qed.
Print Assumptions C56_call.
(** operator() that looks for an item finds one and calls it if one is in the queue, and it is the one that has been in the
    queue longest; this is also true if it is blocked because the queue was empty before. *)
Theorem C56_next {P} (wait : bool) (σ : nat → fifo P) who n i q :
  execution wait σ who → fair σ who → looking (fpc (σ n) worker) = true →
  pushed (ftr (σ n)) = started (ftr (σ n)) ++ i :: q →
  ∃ m, n < m ∧ last (ftr (σ m)) = Some (FStart i) ∧ started (ftr (σ m)) = started (ftr (σ n)) ++ [i].
Proof.
  intros Hx Hf Hl Hq. apply (item_called wait σ who Hx Hf n i q Hl).
  rewrite (i_fifo _ (inv_at wait σ who Hx n)) in Hq. by apply app_inv_head in Hq.
Qed.
Print Assumptions C56_next.
(** If operator() looks for items again and again (or is blocked for ever), all items are called that any thread has passed to
    queue_work_item(), those of each thread in the order in which it queued them; except that the call in which the thread is
    may still throw because there is no memory for its item. *)
Theorem C56_all {P} (wait : bool) (σ : nat → fifo P) who n t :
  execution wait σ who → fair σ who → (∀ n, ∃ m, n ≤ m ∧ looking (fpc (σ m) worker) = true) →
  ∃ m, n ≤ m ∧
    (asked t (ftr (σ n)) `sublist_of` started (ftr (σ m)) ∨
     ∃ l i k, asked t (ftr (σ n)) = l ++ [i] ∧ l `sublist_of` started (ftr (σ m)) ∧
       n < k ≤ m ∧ last (ftr (σ k)) = Some (FFail t i)).
Proof. intros Hx Hf Hl. exact (asked_called wait σ who Hx Hf Hl t n). Qed.
Print Assumptions C56_all.
(** In particular: a worker that waits when the queue is empty and is never terminated, every work item returns or throws, and
    operator() is called again after it was left. *)
Theorem C56_served {P} (σ : nat → fifo P) who n t :
  execution true σ who → fair σ who → (∀ n, fterm (σ n) = false) →
  (∀ n, fpc (σ n) worker = TUser → ∃ m, n ≤ m ∧ fpc (σ m) worker = TTest) →
  ∃ m, n ≤ m ∧
    (asked t (ftr (σ n)) `sublist_of` started (ftr (σ m)) ∨
     ∃ l i k, asked t (ftr (σ n)) = l ++ [i] ∧ l `sublist_of` started (ftr (σ m)) ∧
       n < k ≤ m ∧ last (ftr (σ k)) = Some (FFail t i)).
Proof. intros Hx Hf Hn Hb. apply (C56_all true σ who n t Hx Hf). exact (looks_again true σ who Hx Hf eq_refl Hn Hb). Qed.
Print Assumptions C56_served.

(** ** An execution
    A finite schedule after which no thread is able to go on. *)
Section finite.
Context {P : Type} (wait : bool) (l : list (act P)) (s : fifo P).
Context (Hl : play l (fifo_init wait) = Some s).
Context (H1 : Forall (λ a, match a with ALib _ n => n = 1 | _ => True end) l) (Hs : ∀ t, ¬ able t s).
Definition at_time (n : nat) : fifo P := default s (play (take n l) (fifo_init wait)).
Definition actor (a : act P) : tid := match a with ACall t _ | AEmpty t | AFail t | ALib t _ => t | _ => worker end.
Definition by_whom (n : nat) : option tid := actor <$> l !! n.
Lemma play_app (l1 l2 : list (act P)) s0 : play (l1 ++ l2) s0 = play l1 s0 ≫= play l2.
Proof. revert s0. induction l1 as [|a l1 IH]; simpl; intros s0; [done|]. destruct (fire a s0); simpl; auto. Qed.
Lemma fire_actor a s1 s2 : match a with ALib _ n => n = 1 | _ => True end → fire a s1 = Some s2 → step (actor a) s1 s2.
Proof.
  destruct a; simpl; unfold user; intros Ha H; try subst n; simpl in *;
    repeat match goal with
    | H : context [match ?x with _ => _ end] |- _ => destruct x eqn:?
    end; simplify_eq; try by econstructor.
  destruct (lib t s1) eqn:E; simplify_eq/=. by apply lib_is_step.
Qed.
Lemma played_upto n : play (take n l) (fifo_init wait) = Some (at_time n).
Proof.
  unfold at_time. rewrite <-(take_drop n l), play_app in Hl. by destruct (play (take n l) (fifo_init wait)).
Qed.
Lemma at_end n : length l ≤ n → at_time n = s.
Proof. intros H. unfold at_time. by rewrite take_ge, Hl. Qed.
Lemma finite_execution : execution wait at_time by_whom.
Proof.
  split.
  - unfold at_time. simpl. constructor.
  - intros n. unfold by_whom. destruct (l !! n) as [a|] eqn:E; simpl.
    + pose proof (played_upto (S n)) as Hp. rewrite (take_S_r _ _ _ E), play_app, played_upto in Hp. simpl in Hp.
      destruct (fire a (at_time n)) as [s'|] eqn:Ef; [|done]. simpl in Hp. injection Hp as <-.
      apply fire_actor; [|done]. by eapply Forall_lookup in H1.
    + apply lookup_ge_None in E. rewrite !at_end by lia. done.
Qed.
Lemma finite_fair : fair at_time by_whom.
Proof.
  intros t n. exists (n + length l). split; [lia|]. right. intros k Hk. rewrite at_end by lia. apply Hs.
Qed.
End finite.

(** The worker blocks, thread 1 queues an item, the worker is woken and calls it, it returns, the worker blocks again. *)
Definition shift_acts : list (act nat) :=
  [ARun 0; ALib 0 1; ALib 0 1; ALib 0 1; ALib 0 1; ALib 0 1;
   ACall 1 (IUser 7); ALib 1 1; ALib 1 1; ALib 1 1; ALib 1 1;
   ALib 0 1; ALib 0 1; ALib 0 1; ALib 0 1; ALib 0 1; ARet; ALib 0 1; ALib 0 1; ALib 0 1; ALib 0 1; ALib 0 1].
Definition shift_end : fifo nat := Eval vm_compute in default (fifo_init true) (play shift_acts (fifo_init true)).
Lemma shift_played : play shift_acts (fifo_init true) = Some shift_end.
Proof. vm_compute. reflexivity. Qed.
Lemma shift_over t : ¬ able t shift_end.
Proof.
  intros (G1 & G2 & _). destruct t as [|[|t]]; [by apply G2|by apply G1|by apply G1].
Qed.
Notation shift := (at_time true shift_acts shift_end).
Notation shift_who := (by_whom shift_acts).
Example C56_example : execution true shift shift_who ∧ fair shift shift_who ∧
  (∀ n, fterm (shift n) = false) ∧ (∀ n, fpc (shift n) worker = TUser → ∃ m, n ≤ m ∧ fpc (shift m) worker = TTest) ∧
  (∀ n, ∃ m, n ≤ m ∧ looking (fpc (shift m) worker) = true) ∧
  asked 1 (ftr (shift 7)) = [IUser 7] ∧ started (ftr (shift 7)) = [] ∧ fpc (shift 7) worker = TDWait.
Proof.
  assert (∀ n, 22 ≤ n → shift n = shift_end) as He by (intros n Hn; by apply (at_end true _ _ shift_played)).
  split_and!; try (vm_compute; reflexivity).
  - apply (finite_execution true _ _ shift_played). repeat constructor.
  - apply (finite_fair true _ _ shift_played). apply shift_over.
  - intros n. destruct (le_lt_dec 22 n) as [H|H]; [by rewrite He|].
    do 22 (destruct n as [|n]; [vm_compute; reflexivity|]). lia.
  - intros n Hn. destruct (le_lt_dec 22 n) as [H|H]; [rewrite He in Hn; done|].
    destruct (le_lt_dec n 17) as [H'|H']; [exists 17; split; [done|vm_compute; reflexivity]|].
    do 22 (destruct n as [|n]; [try lia; vm_compute in Hn; discriminate Hn|]). lia.
  - intros n. exists (n + 22). split; [lia|]. rewrite He by lia. vm_compute. reflexivity.
Qed.

(** ** The scheduler *)
Record sched_execution (wait : bool) (ς : nat → sched) (who : nat → option tid) : Prop := {
  sx_start : sreach wait (ς 0);
  sx_step n : match who n with Some t => sstep t (ς n) (ς (S n)) | None => ς (S n) = ς n end;
}.
Lemma sched_execution_execution wait ς who : sched_execution wait ς who → execution wait (λ n, sf (ς n)) who.
Proof.
  intros [H0 Hs]. split; [by apply sreach_freach|]. intros n. specialize (Hs n). destruct (who n) as [t|]; [by destruct Hs|].
  by rewrite Hs.
Qed.
Lemma sched_execution_reach wait ς who n : sched_execution wait ς who → sreach wait (ς n).
Proof.
  intros [H0 Hs]. induction n as [|n IH]; [done|]. specialize (Hs n). destruct (who n) as [t|]; [by eapply sreach_step|].
  by rewrite Hs.
Qed.
Lemma serve_prefix h L1 L2 : serve h L1 `prefix_of` serve h (L1 ++ L2).
Proof.
  induction L1 as [|r L1 IH]; simpl; [apply prefix_nil|]. destruct r; try done; by apply prefix_cons.
Qed.
Lemma served_prefix h R1 R2 : R1 `prefix_of` R2 → served h R1 `prefix_of` served h R2.
Proof.
  intros [R ->]. destruct R1 as [|r R1]; simpl; [apply prefix_nil|]. destruct r; try done. apply prefix_cons, serve_prefix.
Qed.
(** While operator() looks for an item, nothing is being executed. *)
Lemma looking_applied wait S h : sreach wait S → h ≠ 0 → ¬ ctor_threw h (ftr (sf S)) → looking (fpc (sf S) worker) = true →
  log_of h (clog (scont S)) = served h (reqs_of h (started (ftr (sf S)))).
Proof.
  intros Hr Hh Hn Hl. pose proof (i_stack _ (freach_inv _ _ (sreach_freach _ _ Hr))) as Hs.
  assert (cur (sf S) = None) as Hc.
  { unfold stack_ok in Hs. unfold cur.
    assert (outside (fpc (sf S) worker) = false) as Ho by (destruct (fpc (sf S) worker) as [| | | | | | | | | | | | | | |[]]; done).
    rewrite Ho in Hs. destruct Hs as (f & fs & -> & _ & Hi). assert (fitem f = None) as Hi' by (destruct (fpc (sf S) worker); try apply Hi; done).
    destruct f as [? ? o]; simpl in *. by subst. }
  pose proof (J_reach _ _ _ Hh Hr) as [HJ1 HJ2].
  assert (pheld (view h (scont S)) = false) as Hp.
  { destruct (pheld (view h (scont S))); [|done]. destruct (HJ1 eq_refl) as (r & Hr' & _). congruence. }
  rewrite view_log.
  destruct HJ2 as [(HR & _ & _ & _ & Hl' & _)|[[? _]|[(_ & Hc' & _)|[(L & HR & _ & _ & [(_ & _ & _ & Hl')|(_ & _ & _ & Hl')]) _]]]].
  - by rewrite HR, Hl'.
  - done.
  - congruence.
  - done.
  - by rewrite Hp, app_nil_r in Hl'.
Qed.
(** If operator() of the scheduler looks for items again and again (or is blocked for ever), what is requested of a processor
    happens to it, all of it: the requests that were in the queue at any moment have been applied at some later moment. *)
Theorem C56_requests : ∀ wait ς who n h, sched_execution wait ς who → fair (λ n, sf (ς n)) who →
  (∀ n, ∃ m, n ≤ m ∧ looking (fpc (sf (ς m)) worker) = true) → h ≠ 0 → (∀ n, ¬ ctor_threw h (ftr (sf (ς n)))) →
  ∃ m, n ≤ m ∧ served h (reqs_of h (pushed (ftr (sf (ς n))))) `prefix_of` log_of h (clog (scont (ς m))).
Proof.
  intros wait ς who n h Hx Hf Hl Hh Ht. pose proof (sched_execution_execution _ _ _ Hx) as Hx'.
  destruct (all_called wait _ who Hx' Hf Hl n) as (m & Hm & [l1 H]). destruct (Hl m) as (k & Hk & Hl'). exists k. split; [lia|].
  rewrite (looking_applied wait) by eauto using sched_execution_reach. apply served_prefix.
  destruct (trace_grows wait _ who Hx' m k Hk) as [l2 E]. simpl in *. rewrite E, started_app, H, !reqs_of_app, <-app_assoc.
  by apply prefix_app_r.
Qed.
Print Assumptions C56_requests.

Section finite_sched.
Context (wait : bool) (l : list (act req)) (s : sched).
Notation start := (Sched (fifo_init wait) cont_init).
Context (Hl : splay l start = Some s).
Context (H1 : Forall (λ a, match a with ALib _ n => n = 1 | _ => True end) l) (Hs : ∀ t, ¬ able t (sf s)).
Definition sched_at (n : nat) : sched := default s (splay (take n l) start).
Lemma splay_app l1 l2 s0 : splay (l1 ++ l2) s0 = splay l1 s0 ≫= splay l2.
Proof. revert s0. induction l1 as [|a l1 IH]; simpl; intros s0; [done|]. destruct (sfire a s0); simpl; auto. Qed.
Lemma sfire_actor a s1 s2 : match a with ALib _ n => n = 1 | _ => True end → sfire a s1 = Some s2 → sstep (actor a) s1 s2.
Proof.
  intros Ha H. assert (∃ s', step (actor a) (sf s1) s' ∧ observe s1 s' = Some s2) as (s' & Hst & Ho).
  { assert ((∃ t n, a = ALib t n) ∨ ¬ ∃ t n, a = ALib t n) as [(t & n & ->)|Hn] by (destruct a; naive_solver).
    - subst n. simpl in H. destruct (lib t (sf s1) ≫= observe s1) as [s3|] eqn:E; [|done]. simplify_eq/=.
      apply bind_Some in E as (s' & E & Ho). exists s'. split; [by apply lib_is_step|done].
    - assert (fire a (sf s1) ≫= observe s1 = Some s2) as (s' & E & Ho)%bind_Some.
      { destruct a; try done. by destruct Hn; eauto. }
      exists s'. split; [|done]. by apply fire_actor. }
  unfold observe in Ho. destruct (faultb (scont s1)) eqn:Hf; [done|]. apply faultb_ok in Hf. destruct s1 as [s0 c]; simpl in *.
  destruct (step_tr _ _ _ Hst) as [E|[e E]]; rewrite E in Ho.
  - rewrite drop_all in Ho. simplify_eq. by apply sstep_quiet.
  - rewrite drop_app in Ho. destruct (legalb s0 e && returnsb (fstack s0) e c) eqn:Hleg; [|done]. simplify_eq.
    by apply allowed_step.
Qed.
Lemma splayed_upto n : splay (take n l) start = Some (sched_at n).
Proof. unfold sched_at. rewrite <-(take_drop n l), splay_app in Hl. by destruct (splay (take n l) start). Qed.
Lemma sched_at_end n : length l ≤ n → sched_at n = s.
Proof. intros H. unfold sched_at. by rewrite take_ge, Hl. Qed.
Lemma finite_sched_execution : sched_execution wait sched_at (λ n, actor <$> l !! n).
Proof.
  split.
  - unfold sched_at. simpl. constructor.
  - intros n. destruct (l !! n) as [a|] eqn:E; simpl.
    + pose proof (splayed_upto (S n)) as Hp. rewrite (take_S_r _ _ _ E), splay_app, splayed_upto in Hp. simpl in Hp.
      destruct (sfire a (sched_at n)) as [s'|] eqn:Ef; [|done]. simpl in Hp. injection Hp as <-.
      apply sfire_actor; [|done]. by eapply Forall_lookup in H1.
    + apply lookup_ge_None in E. rewrite !sched_at_end by lia. done.
Qed.
Lemma finite_sched_fair : fair (λ n, sf (sched_at n)) (λ n, actor <$> l !! n).
Proof.
  intros t n. exists (n + length l). split; [lia|]. right. intros k Hk. rewrite sched_at_end by lia. apply Hs.
Qed.
End finite_sched.

(** The scheduler blocks; thread 1 creates and initiates a processor and thread 2 sends it an event. *)
Definition office_shift : list (act req) :=
  [ARun 0; ALib 0 1; ALib 0 1; ALib 0 1; ALib 0 1; ALib 0 1]
  ++ mjoin ((λ c, ACall (fst c) (IUser (snd c)) :: replicate 4 (ALib (fst c) 1))
       <$> [(1, RCreate 1); (1, RInitiate 1); (2, REvent 1 7)])
  ++ replicate 5 (ALib 0 1) ++ [ARet] ++ replicate 7 (ALib 0 1) ++ [ARet] ++ replicate 7 (ALib 0 1) ++ [ARet]
  ++ replicate 5 (ALib 0 1).
Definition office_end : sched :=
  Eval vm_compute in default (Sched (fifo_init true) cont_init) (splay office_shift (Sched (fifo_init true) cont_init)).
Lemma office_played : splay office_shift (Sched (fifo_init true) cont_init) = Some office_end.
Proof. vm_compute. reflexivity. Qed.
Lemma office_over t : ¬ able t (sf office_end).
Proof. intros (G1 & G2 & _). destruct t as [|[|[|t]]]; [by apply G2|by apply G1..]. Qed.
Notation office := (sched_at true office_shift office_end).
Notation office_who := (λ n, actor <$> office_shift !! n).
Example C56_requests_example : sched_execution true office office_who ∧ fair (λ n, sf (office n)) office_who ∧
  (∀ n, ∃ m, n ≤ m ∧ looking (fpc (sf (office m)) worker) = true) ∧ (∀ n, ¬ ctor_threw 1 (ftr (sf (office n)))) ∧
  served 1 (reqs_of 1 (pushed (ftr (sf (office 21))))) = [AConstruct 1; AInit 1; AEvent 1 7] ∧
  clog (scont (office 21)) = [].
Proof.
  assert (sched_execution true office office_who) as Hx.
  { apply (finite_sched_execution true _ _ office_played). repeat constructor. }
  assert (∀ n, 48 ≤ n → office n = office_end) as He by (intros n Hn; by apply (sched_at_end true _ _ office_played)).
  split_and!; try done; try (vm_compute; reflexivity).
  - apply (finite_sched_fair true _ _ office_played). apply office_over.
  - intros n. exists (n + 48). split; [lia|]. rewrite He by lia. vm_compute. reflexivity.
  - intros n Ht. destruct (trace_grows true _ _ (sched_execution_execution _ _ _ Hx) n (n + 48)) as [l E]; [lia|].
    apply (threw_app 1 _ l) in Ht. simpl in E. rewrite <-E, He in Ht by lia. apply threwb_ok in Ht. vm_compute in Ht. done.
Qed.
