(** * C50: state machines run by a scheduler

    [areach ch U init code wait A] (Async.v): [A] is reached by some interleaving of any number of threads making
    requests of a [fifo_scheduler] whose processors are state machines.  [finished h tr]: the requests for handle [h]
    whose execution has ended, in the order in which they were executed.  [synchronous ch U init code h L m]: [m] is
    the state of a machine that is used directly, from one thread, by making the calls that [L] stands for. *)
From stdpp Require Import gmap.
From Verif Require Import FifoDemo PropsSched AsyncInv.
From Verif Require Import QueueMono.
From Verif Require Import Demo.

Section async.
Context {W : Type} (ch : handle → chart) (U : handle → user W) (init : handle → W) (code : nat → event).
Notation areach := (areach ch U init code).
Notation synchronous := (synchronous ch U init code).

Lemma means_join L ops1 : Forall2 (means code) L ops1 → ∀ ops2, Forall2 (means code) L ops2 →
  ∃ ops, Forall2 more_iterations ops1 ops ∧ Forall2 more_iterations ops2 ops.
Proof.
  induction 1 as [|r o1 L ops1 Hr _ IH]; intros ops2 H2; inversion H2 as [|? o2 ? ops2' Hr2 H2']; subst.
  { exists []. by split. }
  destruct (IH _ H2') as (ops & I1 & I2).
  assert (∃ o, more_iterations o1 o ∧ more_iterations o2 o) as (o & O1 & O2).
  { destruct r as [h|h|h|h e|h|k], o1 as [n| |n x| | |]; try done; destruct o2 as [n'| |n' x'| | |]; try done; simpl in *; subst.
    - exists (OpInitiate (n `max` n')). split; constructor; lia.
    - exists OpTerminate. split; constructor.
    - exists (OpProcess (n `max` n') (code e)). split; constructor; lia. }
  exists (o :: ops). by split; constructor.
Qed.
Lemma ended_no_div (rs : list (res unit)) : Forall (λ r, r = Ret tt ∨ ∃ x, r = Exn x) rs → Div ∉ rs.
Proof. intros H Hd. rewrite Forall_forall in H. apply H in Hd as [?|[? ?]]; done. Qed.
Lemma synchronous_same h L m m' : synchronous h L m → synchronous h L m' → m = m'.
Proof.
  intros (ops & rs & H1 & H2 & H3 & _) (ops' & rs' & H1' & H2' & H3' & _).
  destruct (means_join _ _ H1 _ H1') as (ops2 & I1 & I2).
  pose proof (run_mono (ch h) (U h) _ _ (fresh (init h)) I1) as R1.
  pose proof (run_mono (ch h) (U h) _ _ (fresh (init h)) I2) as R2.
  rewrite H2 in R1. rewrite H2' in R2. rewrite R1 in R2 by by apply ended_no_div.
  specialize (R2 (ended_no_div _ H3')). congruence.
Qed.

Lemma finished_prefix h l : finished h l `prefix_of` reqs_of h (started l).
Proof.
  unfold finished. case_decide; [|done]. destruct (reqs_of h (started l)) as [|r R _] using rev_ind; [done|].
  rewrite removelast_last. by apply prefix_app_r.
Qed.

(** The calls that ended are reachable states of the model of the synchronous machine. *)
Lemma run_reach h ops s rs m : reach (ch h) (U h) s → (∀ n, OpInitiate n ∉ ops) → Forall (λ o, op_ok (ch h) o = true) ops →
  run (ch h) (U h) ops s = (rs, m) → Forall (λ r : res unit, r = Ret tt ∨ ∃ x, r = Exn x) rs → reach (ch h) (U h) m.
Proof.
  revert s rs. induction ops as [|o ops IH]; simpl; intros s rs Hs Hn Hok Hr Hf; [by simplify_eq|].
  apply Forall_cons in Hok as [Ho Hok].
  assert (op_allowed (ch h) (U h) o s) as Ha.
  { destruct o as [n| | | | |]; try done. destruct (Hn n). by left. }
  assert (∀ n, OpInitiate n ∉ ops) as Hn' by (intros n H; apply (Hn n); by right).
  destruct (call (ch h) (U h) o s) as [[[]|x|f|] s1] eqn:E.
  - destruct (run (ch h) (U h) ops s1) as [rs1 m1] eqn:E1. simplify_eq. apply Forall_cons in Hf as [_ Hf].
    eapply (IH s1); eauto. by eapply reach_ret.
  - destruct (run (ch h) (U h) ops s1) as [rs1 m1] eqn:E1. simplify_eq. apply Forall_cons in Hf as [_ Hf].
    eapply (IH s1); eauto. by eapply reach_exn.
  - simplify_eq. apply Forall_cons in Hf as [[?|[? ?]] _]; done.
  - simplify_eq. apply Forall_cons in Hf as [[?|[? ?]] _]; done.
Qed.
Lemma means_ok L ops h : Forall2 (means code) L ops → Forall (λ o, op_ok (ch h) o = true) ops.
Proof. induction 1 as [|r o L ops Hr _ IH]; constructor; [|done]. by destruct r, o. Qed.
Lemma means_no_initiate h L ops : (∀ r, r ∈ L → handle_of r = Some h) → RInitiate h ∉ L → Forall2 (means code) L ops →
  ∀ n, OpInitiate n ∉ ops.
Proof.
  intros Hh Hn H. induction H as [|r o L ops Hr _ IH]; intros n; [by apply not_elem_of_nil|].
  apply not_elem_of_cons in Hn as [Hn1 Hn2]. apply not_elem_of_cons. split.
  - intros <-. destruct r as [|g| | | |]; try done. assert (handle_of (RInitiate g) = Some h) as [= ->] by (apply Hh; by left). done.
  - apply IH; [|done]. intros r' Hr'. apply Hh. by right.
Qed.
End async.

(** At any moment the machine is exactly what a machine that is used synchronously is after the calls that the requests
    executed so far stand for, in order, whatever the threads and the other machines do.  Before the constructor has
    returned there is no machine; the first destroy_processor() destroys it, and nothing happens to it afterwards. *)
Theorem C50_synchronous : ∀ W (ch : handle → chart) (U : handle → user W) init code wait A h,
  areach ch U init code wait A → h ≠ 0 → ¬ ctor_threw h (ftr (sf (asched A))) →
  match finished h (ftr (sf (asched A))) with
  | [] => amach A h = Absent
  | r :: L => r = RCreate h ∧
      (RDestroy h ∉ L → ∃ m, amach A h = Alive m ∧ synchronous ch U init code h L m) ∧
      (∀ L1 L2, L = L1 ++ RDestroy h :: L2 → RDestroy h ∉ L1 →
         ∃ m m', amach A h = Dead m' ∧ synchronous ch U init code h L1 m ∧ destroy (ch h) (U h) m = (Ret tt, m'))
  end.
Proof.
  intros W ch U init code wait A h Hr Hh Ht. pose proof (shape_reach _ _ _ _ _ _ _ Hh Hr Ht) as Hs.
  pose proof (finished_prefix h (ftr (sf (asched A)))) as [k Hk].
  pose proof (started_shape _ _ _ Hh (areach_sreach _ _ _ _ _ _ Hr)) as Hsh.
  destruct (finished h (ftr (sf (asched A)))) as [|r L]; [done|]. split.
  - destruct Hsh as [Hsh|(_ & L' & Hsh & _)]; rewrite Hk in Hsh; simpl in Hsh; congruence.
  - done.
Qed.
Print Assumptions C50_synchronous.

(** The requests are executed in the order in which they were queued. *)
Theorem C50_order : ∀ W (ch : handle → chart) (U : handle → user W) init code wait A h,
  areach ch U init code wait A → h ≠ 0 →
  finished h (ftr (sf (asched A))) `prefix_of` reqs_of h (pushed (ftr (sf (asched A)))) ∧
  (fstack (sf (asched A)) = [] → finished h (ftr (sf (asched A))) = reqs_of h (started (ftr (sf (asched A))))).
Proof.
  intros W ch U init code wait A h Hr Hh. apply areach_sreach in Hr. split.
  - etrans; [apply finished_prefix|]. by apply (C39_order _ _ _ Hr Hh).
  - intros Hs. unfold finished. rewrite (executing_cur _ (freach_inv _ _ (sreach_freach _ _ Hr))).
    unfold cur. rewrite Hs. done.
Qed.
Print Assumptions C50_order.

(** Two executions, of whatever schedulers, threads and other machines, in which the same requests for the machine have
    been executed leave it in the same state, including everything it has done to user code. *)
Theorem C50_determined : ∀ W (ch ch' : handle → chart) (U U' : handle → user W) init init' code wait wait' A A' h,
  areach ch U init code wait A → areach ch' U' init' code wait' A' → h ≠ 0 → ch h = ch' h → U h = U' h →
  init h = init' h → ¬ ctor_threw h (ftr (sf (asched A))) → ¬ ctor_threw h (ftr (sf (asched A'))) →
  finished h (ftr (sf (asched A))) = finished h (ftr (sf (asched A'))) → amach A h = amach A' h.
Proof.
  intros W ch ch' U U' init init' code wait wait' A A' h Hr Hr' Hh Ec Eu Ei Ht Ht' E.
  pose proof (shape_reach _ _ _ _ _ _ _ Hh Hr Ht) as H1. pose proof (shape_reach _ _ _ _ _ _ _ Hh Hr' Ht') as H2.
  rewrite <- E in H2. destruct (finished h (ftr (sf (asched A)))) as [|r L]; simpl in *; [congruence|].
  assert (∀ L m m', synchronous ch U init code h L m → synchronous ch' U' init' code h L m' → m = m') as Hsame.
  { clear -Ec Eu Ei. intros L m m' Hm Hm'. apply (synchronous_same ch U init code h L); [done|]. unfold synchronous in *.
    rewrite Ec, Eu, Ei. done. }
  destruct (decide (RDestroy h ∈ L)) as [Hd|Hd].
  - destruct (first_destroy _ _ Hd) as (L1 & L2 & -> & Hn). destruct H1 as [_ H1], H2 as [_ H2].
    destruct (H1 _ _ eq_refl Hn) as (m & m' & -> & S1 & D1), (H2 _ _ eq_refl Hn) as (k & k' & -> & S2 & D2).
    rewrite (Hsame _ _ _ S1 S2), Ec, Eu in D1. congruence.
  - destruct H1 as [H1 _], H2 as [H2 _]. destruct (H1 Hd) as (m & -> & S1), (H2 Hd) as (m' & -> & S2). f_equal. eauto.
Qed.
Print Assumptions C50_determined.

(** What is proved about machines that are used synchronously holds for them, if initiate_processor() is not called
    on a machine that is running: every state is one of those the other theorems are about. *)
Theorem C50_reach : ∀ W (ch : handle → chart) (U : handle → user W) init code wait A h m L,
  areach ch U init code wait A → h ≠ 0 → ¬ ctor_threw h (ftr (sf (asched A))) → amach A h = Alive m →
  finished h (ftr (sf (asched A))) = RCreate h :: L → RInitiate h ∉ tail L → reach (ch h) (U h) m.
Proof.
  intros W ch U init code wait A h m L Hr Hh Ht Hm HL Hi.
  pose proof (shape_reach _ _ _ _ _ _ _ Hh Hr Ht) as Hs. rewrite HL in Hs. destruct Hs as [Hs Hs'].
  assert (RDestroy h ∉ L) as Hd.
  { intros (L1 & L2 & -> & Hn)%first_destroy. destruct (Hs' _ _ eq_refl Hn) as (? & ? & ? & _). congruence. }
  destruct (Hs Hd) as (m' & Hm' & ops & rs & H1 & H2 & H3 & H4). assert (m' = m) as -> by congruence. clear Hs Hs' Hd.
  assert (∀ r, r ∈ L → handle_of r = Some h) as Hall.
  { intros r Hin. apply (reqs_of_all h (started (ftr (sf (asched A))))).
    destruct (finished_prefix h (ftr (sf (asched A)))) as [k ->]. rewrite HL. apply elem_of_app. left. by right. }
  pose proof (means_ok ch code _ _ h H1) as Hok.
  destruct H1 as [|r o L ops Hro H1]; [simpl in H2; simplify_eq; constructor|]. simpl in Hi.
  apply Forall_cons in Hok as [Ho Hok].
  assert (∀ n, OpInitiate n ∉ ops) as Hno.
  { eapply (means_no_initiate code h L); try done. intros r' Hr'. apply Hall. by right. }
  assert (op_allowed (ch h) (U h) o (fresh (init h))) as Ha.
  { destruct o; try done. intros s' E. cbn in E. by simplify_eq. }
  simpl in H2. destruct (call (ch h) (U h) o (fresh (init h))) as [[[]|x|f|] s1] eqn:E.
  - destruct (run (ch h) (U h) ops s1) as [rs1 m1] eqn:E1. simplify_eq. apply Forall_cons in H3 as [_ H3].
    eapply (run_reach ch U h ops s1); eauto. eapply reach_ret; eauto. constructor.
  - destruct (run (ch h) (U h) ops s1) as [rs1 m1] eqn:E1. simplify_eq. apply Forall_cons in H3 as [_ H3].
    eapply (run_reach ch U h ops s1); eauto. eapply reach_exn; eauto. constructor.
  - simplify_eq. apply Forall_cons in H3 as [[?|[? ?]] _]; done.
  - simplify_eq. apply Forall_cons in H3 as [[?|[? ?]] _]; done.
Qed.
Print Assumptions C50_reach.

(** ** Executing schedules *)
Global Instance aev_eq_dec : EqDecision aev.
Proof. solve_decision. Defined.
Section aplay.
Context {W : Type} (ch : handle → chart) (U : handle → user W) (init : handle → W) (code : nat → event).
Notation M := (mst W heapst).

Definition opof (r : req) : option op :=
  match r with
  | RInitiate _ => Some (OpInitiate 10)
  | RTerminate _ => Some OpTerminate
  | REvent _ e => Some (OpProcess 10 (code e))
  | _ => None
  end.
Definition endsb (ok : bool) (v : res unit) : bool :=
  match v with Ret _ => ok | Exn _ => negb ok | _ => false end.
Definition called (g : handle) (ok : bool) (r : req) (m : M) : option M :=
  match opof r with
  | Some o => let '(v, m') := call (ch g) (U g) o m in if endsb ok v then Some m' else None
  | None => if bool_decide (r = RDestroy g) && ok then Some m else None
  end.
Definition survivor (g : handle) (c c' : cont) (m : M) : option slot :=
  if decide (log_of g (clog c') = log_of g (clog c)) then Some (Alive m)
  else if decide (log_of g (clog c') = log_of g (clog c) ++ [ADestruct g]) then
    match destroy (ch g) (U g) m with (Ret _, m') => Some (Dead m') | _ => None end
  else None.
Definition fatef (g : handle) (ok : bool) (r : req) (c c' : cont) (x : slot) : option slot :=
  if decide (r = RCreate g) then Some (if ok then Alive (fresh (init g)) else x)
  else if decide (cheld c = Some g) then match x with Alive m => called g ok r m ≫= survivor g c c' | _ => None end
  else Some x.
Definition endedf (ok : bool) (r : req) (c c' : cont) (μ : handle → @slot W) : option (handle → slot) :=
  match handle_of r with
  | Some g =>
    if decide (cheld c = None ∨ cheld c = Some g) then set_fn μ g <$> fatef g ok r c c' (μ g) else None
  | None => if decide (cheld c = None) then Some μ else None
  end.
Definition aobserve (A : @asys W) (s' : fifo req) : option asys :=
  observe (asched A) s' ≫= λ S',
  match drop (length (ftr (sf (asched A)))) (ftr s'), fstack (sf (asched A)) with
  | [FItemRet], Frame _ _ (Some (IUser r)) :: _ =>
      Asys S' <$> endedf true r (scont (asched A)) (scont S') (amach A)
  | [FThrow], Frame _ _ (Some (IUser r)) :: _ =>
      Asys S' <$> endedf false r (scont (asched A)) (scont S') (amach A)
  | _, _ => Some (Asys S' (amach A))
  end.
Fixpoint alibs (t : tid) (n : nat) (A : asys) : option asys :=
  match n with 0 => Some A | S n => (lib t (sf (asched A)) ≫= aobserve A) ≫= alibs t n end.
Definition afire (a : act req) (A : asys) : option asys :=
  match a with
  | ALib t n => alibs t n A
  | _ => fire a (sf (asched A)) ≫= aobserve A
  end.
Fixpoint aplay (l : list (act req)) (A : asys) : option asys :=
  match l with [] => Some A | a :: l => afire a A ≫= aplay l end.

Notation areach := (areach ch U init code).
Notation fate := (fate ch U init code).
Lemma opof_asks r o : opof r = Some o → asks code r o.
Proof. destruct r; simpl; intros [= <-]; constructor. Qed.
Lemma survivor_ok g c c' m x : survivor g c c' m = Some x → survives ch U g c c' m x.
Proof.
  unfold survivor. case_decide as H1; [intros [= <-]; by constructor|]. case_decide as H2; [|done].
  destruct (destroy (ch g) (U g) m) as [[[]|y|f|] m'] eqn:E; try done. intros [= <-]. by eapply survives_no.
Qed.
Lemma fatef_ok g ok r c c' x x' : fatef g ok r c c' x = Some x' → fate g ok r c c' x x'.
Proof.
  unfold fatef. case_decide as H1.
  { destruct ok; intros [= <-]; [by apply fate_made|by apply fate_failed]. }
  case_decide as H2; [|intros [= <-]; by apply fate_other]. destruct x as [|m|]; try done.
  intros (m1 & Hm & Hs)%bind_Some. apply survivor_ok in Hs. unfold called in Hm.
  destruct (opof r) as [o|] eqn:Eo.
  - destruct (call (ch g) (U g) o m) as [v m2] eqn:Ec. destruct (endsb ok v) eqn:Ee; simplify_eq.
    eapply (fate_called _ _ _ _ _ _ _ _ _ m o v m1); eauto using opof_asks.
    destruct v as [[]|y|f|], ok; try done. by exists y.
  - destruct (bool_decide (r = RDestroy g)) eqn:Er; [|done]. apply bool_decide_eq_true in Er. destruct ok; simplify_eq/=.
    by eapply fate_released.
Qed.
Lemma endedf_ok ok r c c' μ μ' : endedf ok r c c' μ = Some μ' → ∀ g, fate g ok r c c' (μ g) (μ' g).
Proof.
  unfold endedf. destruct (handle_of r) as [h|] eqn:Eh.
  - case_decide as Hc; [|done]. intros (x & Hx & ->)%fmap_Some g. unfold set_fn. case_decide as Hg.
    + subst g. by apply fatef_ok.
    + apply fate_other; [by intros ->; simpl in *; congruence|]. destruct Hc as [->| ->]; congruence.
  - case_decide as Hc; [|done]. intros [= <-] g. apply fate_other; [by intros ->|congruence].
Qed.
Lemma aobserve_sound wait t A s' A' : areach wait A → Fifo.step t (sf (asched A)) s' → aobserve A s' = Some A' → areach wait A'.
Proof.
  intros Hr Hs (S' & Ho & H)%bind_Some. destruct A as [S μ]; simpl in *.
  assert (sstep t S S' ∧ sf S' = s') as [Hss <-].
  { unfold observe in Ho. destruct (faultb (scont S)) eqn:Hf; [done|]. apply faultb_ok in Hf. destruct S as [s c]; simpl in *.
    destruct (step_tr _ _ _ Hs) as [E|[e E]]; rewrite E in Ho.
    - rewrite drop_all in Ho. simplify_eq. split; [by eapply sstep_quiet|done].
    - rewrite drop_app in Ho. destruct (legalb s e && returnsb (fstack s) e c) eqn:Hl; [|done]. simplify_eq. split; [|done].
      by apply allowed_step. }
  eapply (areach_step _ _ _ _ _ t); [done|].
  destruct (step_tr _ _ _ Hs) as [E|[e E]]; rewrite E in H.
  - rewrite drop_all in H. simplify_eq. by apply astep_quiet.
  - rewrite drop_app in H. assert (∃ μ', A' = Asys S' μ' ∧ changes ch U init code (fstack (sf S)) e (scont S) (scont S') μ μ')
      as (μ' & -> & Hc); [|by eapply astep_event].
    unfold changes. destruct e; simplify_eq; try by eexists.
    + destruct (fstack (sf S)) as [|[n k [[r|]|]] fs]; simplify_eq; try by eexists.
      apply fmap_Some in H as (μ' & H & ->). eexists. split; [done|]. by apply endedf_ok.
    + destruct (fstack (sf S)) as [|[n k [[r|]|]] fs]; simplify_eq; try by eexists.
      apply fmap_Some in H as (μ' & H & ->). eexists. split; [done|]. by apply endedf_ok.
Qed.
Lemma aplay_sound wait l A A' : areach wait A → aplay l A = Some A' → areach wait A'.
Proof.
  revert A. induction l as [|a l IH]; simpl; intros A Hr H; simplify_eq; [done|].
  apply bind_Some in H as (A1 & H1 & H). apply (IH A1); [|done]. clear IH H.
  assert (∀ t n A A', areach wait A → alibs t n A = Some A' → areach wait A') as Hlib.
  { clear. intros t n. induction n as [|n IH]; simpl; intros A A' Hr H; simplify_eq; [done|].
    apply bind_Some in H as (A2 & H & H3). apply bind_Some in H as (s2 & H & H2).
    apply (IH A2); [|done]. eapply aobserve_sound; eauto using lib_is_step. }
  destruct (single a) eqn:Ha; [|destruct a; try done; by eapply Hlib].
  assert (fire a (sf (asched A)) ≫= aobserve A = Some A1) as (s2 & H2 & H3)%bind_Some by (destruct a; done).
  destruct (fire_is_step _ _ _ Ha H2) as [t Ht]. by eapply aobserve_sound.
Qed.
Lemma aplayed wait l (f : asys → bool) : 
  match aplay l (Asys (Sched (fifo_init wait) cont_init) (λ _, Absent)) with Some x => f x | None => false end = true →
  ∃ A, areach wait A ∧ f A = true.
Proof.
  destruct (aplay l (Asys (Sched (fifo_init wait) cont_init) (λ _, Absent))) as [A|] eqn:E; [|done]. intros Hf. exists A.
  split; [|done]. eapply aplay_sound; [constructor|done].
Qed.
End aplay.

(** Two machines of the class of Demo.v.  The reaction of the first one to event 7 throws, and nothing handles the
    exception. *)
Definition init2 (h : handle) : list (place * deed) :=
  if h =? 1 then [(PReact 2, Deed [] (Some 3) DDiscard); (PReact 0, Deed [] None DForward)] else [].
Definition done_by (A : @asys (list (place * deed))) (h : handle) : list okind :=
  match amach A h with Absent => [] | Alive m | Dead m => map ob (tr m) end.
Definition aliveb (A : @asys (list (place * deed))) (h : handle) : bool := match amach A h with Alive _ => true | _ => false end.
Definition areach2 := areach (λ _, Demo.chart5) (λ _, Demo.U) init2 ev.
(** The schedule of C39 up to the exception; [office_day] ends with the destruction of machine 1. *)
Definition office_morning : list (act req) := take (length office_day - 10) office_day.
(** The same requests for machine 1, each made by another thread after the previous one was executed. *)
Definition elsewhere : list (act req) :=
  queues 3 (IUser (RCreate 1)) ++ [ARun 1; ALib 0 7; ARet; ALib 0 1]
  ++ queues 4 (IUser (RInitiate 1)) ++ [ARun 1; ALib 0 7; ARet; ALib 0 1]
  ++ queues 5 (IUser (REvent 1 7)) ++ [ARun 0; ALib 0 7; AThrow].
(** What user code of machine 1 sees in the morning. *)
Definition morning1 : list okind := [
  OReset; OCtor 0 0; OCtor 1 1; OCtor 2 3; OCtor 3 4; OCtor 4 2;
  OProcess (ev 7); ODispatch (ev 7) [4; 2]; OVisit 3 4 (ev 7); OResult 3 4 RForward; OVisit 2 3 (ev 7); OResult 2 3 RForward;
  OVisit 1 1 (ev 7); OResult 1 1 RForward; OVisit 0 0 (ev 7); OResult 0 0 RForward; OVisit 4 2 (ev 7); OReact 4 2 3 (ev 7);
  OThrow 3; OCatch 3; OHandle 4 (ev 50); OVisit 4 2 (ev 50); OResult 4 2 RForward; OVisit 0 0 (ev 50); OReact 0 0 2 (ev 50);
  OResult 0 0 RForward; OUnhandled; ODtor 4 2; ODtor 3 4; ODtor 2 3; ODtor 1 1; ODtor 0 0; OReset; ODone].
Lemma in_the_morning l : l = office_morning ∨ l = elsewhere → ∃ A m, areach2 false A ∧ ¬ ctor_threw 1 (ftr (sf (asched A))) ∧
  finished 1 (ftr (sf (asched A))) = [RCreate 1; RInitiate 1; REvent 1 7] ∧ amach A 1 = Alive m ∧ map ob (tr m) = morning1.
Proof.
  intros Hl. destruct (aplayed (λ _, Demo.chart5) (λ _, Demo.U) init2 ev false l (λ A,
    bool_decide (finished 1 (ftr (sf (asched A))) = [RCreate 1; RInitiate 1; REvent 1 7]) && negb (threwb 1 (ftr (sf (asched A))))
    && aliveb A 1 && bool_decide (done_by A 1 = morning1))) as (A & Hr & H); [destruct Hl as [-> | ->]; by_eval|].
  apply andb_true_iff in H as [[[H1%bool_decide_eq_true H2]%andb_true_iff H4]%andb_true_iff H3%bool_decide_eq_true].
  unfold done_by in H3. unfold aliveb in H4. destruct (amach A 1) as [|m|] eqn:Em; try done. exists A, m. split_and!; try done.
  intros Ht%threwb_ok. by rewrite Ht in H2.
Qed.
Example C50_example : ∃ A, areach2 false A ∧ 1 ≠ 0 ∧ ¬ ctor_threw 1 (ftr (sf (asched A))) ∧
  ∃ m, amach A 1 = Alive m ∧ finished 1 (ftr (sf (asched A))) = [RCreate 1; RInitiate 1; REvent 1 7] ∧
  RInitiate 1 ∉ tail [RInitiate 1; REvent 1 7] ∧ map ob (tr m) = morning1.
Proof.
  destruct (in_the_morning office_morning) as (A & m & Hr & Ht & Hf & Hm & Ho); [by left|]. exists A. split_and!; try done.
  exists m. split_and!; try done. by intros [=]%elem_of_list_singleton.
Qed.
Example C50_determined_example : ∃ A A', areach2 false A ∧ areach2 false A' ∧ ¬ ctor_threw 1 (ftr (sf (asched A))) ∧
  ¬ ctor_threw 1 (ftr (sf (asched A'))) ∧ finished 1 (ftr (sf (asched A))) = finished 1 (ftr (sf (asched A'))) ∧
  amach A 1 ≠ Absent ∧ ftr (sf (asched A)) ≠ ftr (sf (asched A')).
Proof.
  destruct (aplayed (λ _, Demo.chart5) (λ _, Demo.U) init2 ev false office_morning (λ A,
    bool_decide (length (ftr (sf (asched A))) = 33) && bool_decide (finished 1 (ftr (sf (asched A))) = [RCreate 1; RInitiate 1; REvent 1 7])
    && negb (threwb 1 (ftr (sf (asched A)))) && bool_decide (done_by A 1 = morning1))) as (A & Hr & H); [by_eval|].
  destruct (aplayed (λ _, Demo.chart5) (λ _, Demo.U) init2 ev false elsewhere (λ A,
    negb (bool_decide (length (ftr (sf (asched A))) = 33)) && bool_decide (finished 1 (ftr (sf (asched A))) = [RCreate 1; RInitiate 1; REvent 1 7])
    && negb (threwb 1 (ftr (sf (asched A)))))) as (A' & Hr' & H'); [by_eval|].
  apply andb_true_iff in H as [[[H1%bool_decide_eq_true H2%bool_decide_eq_true]%andb_true_iff H3]%andb_true_iff H4%bool_decide_eq_true].
  apply andb_true_iff in H' as [[H1' H2'%bool_decide_eq_true]%andb_true_iff H3'].
  exists A, A'. split_and!; try done.
  - intros Ht%threwb_ok. by rewrite Ht in H3.
  - intros Ht%threwb_ok. by rewrite Ht in H3'.
  - congruence.
  - intros E. unfold done_by in H4. by rewrite E in H4.
  - intros E. rewrite <- E, H1 in H1'. done.
Qed.
(** In the evening machine 1 is gone, and machine 2 is running. *)
Example C50_gone_example : ∃ A, areach2 false A ∧ ¬ ctor_threw 1 (ftr (sf (asched A))) ∧
  finished 1 (ftr (sf (asched A))) = RCreate 1 :: [RInitiate 1; REvent 1 7; RDestroy 1; REvent 1 8] ∧
  RDestroy 1 ∈ [RInitiate 1; REvent 1 7; RDestroy 1; REvent 1 8] ∧
  finished 2 (ftr (sf (asched A))) = [RCreate 2; RInitiate 2] ∧ fstack (sf (asched A)) = [] ∧
  aliveb A 1 = false ∧ done_by A 1 = morning1 ++ [OReset] ∧
  done_by A 2 = [OReset; OCtor 0 0; OCtor 1 1; OCtor 2 3; OCtor 3 4; OCtor 4 2].
Proof.
  destruct (aplayed (λ _, Demo.chart5) (λ _, Demo.U) init2 ev false office_day (λ A,
    bool_decide (finished 1 (ftr (sf (asched A))) = [RCreate 1; RInitiate 1; REvent 1 7; RDestroy 1; REvent 1 8])
    && bool_decide (finished 2 (ftr (sf (asched A))) = [RCreate 2; RInitiate 2])
    && negb (aliveb A 1) && bool_decide (done_by A 1 = morning1 ++ [OReset])
    && match fstack (sf (asched A)) with [] => true | _ => false end && negb (threwb 1 (ftr (sf (asched A))))
    && bool_decide (done_by A 2 = [OReset; OCtor 0 0; OCtor 1 1; OCtor 2 3; OCtor 3 4; OCtor 4 2]))) as (A & Hr & H); [by_eval|].
  apply andb_true_iff in H as [[[[[[H1%bool_decide_eq_true H2%bool_decide_eq_true]%andb_true_iff H6]%andb_true_iff
    H7%bool_decide_eq_true]%andb_true_iff H3]%andb_true_iff H4]%andb_true_iff H5%bool_decide_eq_true].
  exists A. split_and!; try done.
  - intros Ht%threwb_ok. by rewrite Ht in H4.
  - right. right. by left.
  - by destruct (fstack (sf (asched A))).
  - by destruct (aliveb A 1).
Qed.
(** A machine that is destroyed while it is running destroys its states, without calling exit(). *)
Example C50_destroyed_example : ∃ A, areach2 false A ∧ ¬ ctor_threw 2 (ftr (sf (asched A))) ∧
  finished 2 (ftr (sf (asched A))) = RCreate 2 :: [RInitiate 2] ++ RDestroy 2 :: [] ∧ aliveb A 2 = false ∧
  done_by A 2 = [OReset; OCtor 0 0; OCtor 1 1; OCtor 2 3; OCtor 3 4; OCtor 4 2;
    ODtor 4 2; ODtor 3 4; ODtor 2 3; ODtor 1 1; ODtor 0 0; OReset].
Proof.
  destruct (aplayed (λ _, Demo.chart5) (λ _, Demo.U) init2 ev false
    (queues 1 (IUser (RCreate 2)) ++ queues 3 (IUser (RInitiate 2)) ++ queues 1 (IUser (RDestroy 2))
     ++ [ARun 0; ALib 0 7; ARet; ALib 0 7; ARet; ALib 0 7; ARet]) (λ A,
    bool_decide (finished 2 (ftr (sf (asched A))) = [RCreate 2; RInitiate 2; RDestroy 2])
    && negb (aliveb A 2) && negb (threwb 2 (ftr (sf (asched A))))
    && bool_decide (done_by A 2 = [OReset; OCtor 0 0; OCtor 1 1; OCtor 2 3; OCtor 3 4; OCtor 4 2;
         ODtor 4 2; ODtor 3 4; ODtor 2 3; ODtor 1 1; ODtor 0 0; OReset]))) as (A & Hr & H); [by_eval|].
  apply andb_true_iff in H as [[[H1%bool_decide_eq_true H2]%andb_true_iff H3]%andb_true_iff H4%bool_decide_eq_true].
  exists A. split_and!; try done.
  - intros Ht%threwb_ok. by rewrite Ht in H3.
  - by destruct (aliveb A 2).
Qed.
