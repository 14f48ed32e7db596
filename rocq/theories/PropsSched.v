(** * C39, C40: processors run by a scheduler

    [sreach wait S]: [S] is reached by some interleaving of any number of threads making requests of a [fifo_scheduler],
    while one of them runs it.  [reqs_of h (pushed tr)] are the requests for handle [h] in the order in which they were
    queued, [reqs_of h (started tr)] those that have been executed, [log_of h (clog c)] what happened to the processor. *)
From stdpp Require Import gmap.
From Verif Require Import SchedInv FifoDemo.

(** ** Executing schedules *)
Definition legalb (s : fifo req) (e : fev req) : bool :=
  match e with
  | FCall _ (IUser (RCreate h)) =>
    negb (h =? 0) &&
    forallb (λ e, match e with FCall _ (IUser (RCreate h')) => negb (h' =? h) | _ => true end) (ftr s)
  | FCall _ (IUser r) =>
    match handle_of r with
    | Some h => (h =? 0) || bool_decide (IUser (RCreate h) ∈ pushed (ftr s))
    | None => true
    end
  | FRun _ => match fstack s with [] => true | _ => false end
  | _ => true
  end.
Definition faultb (c : cont) : bool := existsb (λ a, match a with AFault _ => true | _ => false end) (clog c).

(** create_processor_impl0 has inserted the holder if it returns. *)
Definition returnsb (fs : list (frame req)) (e : fev req) (c : cont) : bool :=
  match e, fs with FItemRet, Frame _ _ (Some (IUser (RCreate h))) :: _ => bool_decide (h ∈ cset c) | _, _ => true end.
Definition observe (S : sched) (s' : fifo req) : option sched :=
  if faultb (scont S) then None else
  match drop (length (ftr (sf S))) (ftr s') with
  | [] => Some (Sched s' (scont S))
  | [e] => if legalb (sf S) e && returnsb (fstack (sf S)) e (scont S) then Some (Sched s' (effect (fstack (sf S)) e (scont S))) else None
  | _ => None
  end.
Fixpoint slibs (t : tid) (n : nat) (S : sched) : option sched :=
  match n with 0 => Some S | Datatypes.S n => (lib t (sf S) ≫= observe S) ≫= slibs t n end.
Definition sfire (a : act req) (S : sched) : option sched :=
  match a with
  | ALib t n => slibs t n S
  | _ => fire a (sf S) ≫= observe S
  end.
Fixpoint splay (l : list (act req)) (S : sched) : option sched :=
  match l with [] => Some S | a :: l => sfire a S ≫= splay l end.

Lemma legalb_ok s e : legalb s e = true → legal s e.
Proof.
  destruct e as [t [r|]| | | | | | | | | |]; simpl; try done; [|by destruct (fstack s)].
  assert (∀ h, (h =? 0) || bool_decide (IUser (RCreate h) ∈ pushed (ftr s)) = true →
    h = 0 ∨ IUser (RCreate h) ∈ pushed (ftr s)) as Hh.
  { intros h [H%Nat.eqb_eq|H%bool_decide_eq_true]%orb_true_iff; auto. }
  destruct r; simpl; auto. intros [H1 H2]%andb_true_iff. rewrite forallb_forall in H2. split.
  { intros ->. by simpl in H1. }
  intros u Hu. apply elem_of_list_In in Hu. apply H2 in Hu. simpl in Hu. by rewrite Nat.eqb_refl in Hu.
Qed.
Lemma allowed_step t s s' c e : step t s s' → ftr s' = ftr s ++ [e] → ¬ faulted c →
  legalb s e && returnsb (fstack s) e c = true → sstep t (Sched s c) (Sched s' (effect (fstack s) e c)).
Proof.
  intros Hs E Hf [Hl Hr]%andb_true_iff. eapply sstep_event; eauto using legalb_ok. constructor.
  intros h n k fs -> Efs. rewrite Efs in Hr. by apply bool_decide_eq_true in Hr.
Qed.
Lemma faultb_ok c : faultb c = false → ¬ faulted c.
Proof.
  intros H [h Hh]. assert (faultb c = true); [|congruence]. apply existsb_exists. exists (AFault h).
  by rewrite <- elem_of_list_In.
Qed.
Lemma observe_sound wait t S s' S' : sreach wait S → step t (sf S) s' → observe S s' = Some S' → sreach wait S'.
Proof.
  intros Hr Hs Ho. unfold observe in Ho. destruct (faultb (scont S)) eqn:Hf; [done|]. apply faultb_ok in Hf.
  destruct S as [s c]; simpl in *.
  destruct (step_tr _ _ _ Hs) as [E|[e E]]; rewrite E in Ho.
  - rewrite drop_all in Ho. simplify_eq. eapply (sreach_step _ t); [done|]. by eapply sstep_quiet.
  - rewrite drop_app in Ho. destruct (legalb s e && returnsb (fstack s) e c) eqn:Hl; [|done]. simplify_eq.
    eapply (sreach_step _ t); [done|]. by apply allowed_step.
Qed.
Lemma splay_sound wait l S S' : sreach wait S → splay l S = Some S' → sreach wait S'.
Proof.
  revert S. induction l as [|a l IH]; simpl; intros S Hr H; simplify_eq; [done|].
  apply bind_Some in H as (S1 & H1 & H). apply (IH S1); [|done]. clear IH H.
  assert (∀ t n S S', sreach wait S → slibs t n S = Some S' → sreach wait S') as Hlib.
  { clear. intros t n. induction n as [|n IH]; simpl; intros S S' Hr H; simplify_eq; [done|].
    apply bind_Some in H as (S2 & H & H3). apply bind_Some in H as (s2 & H & H2).
    apply (IH S2); [|done]. eapply observe_sound; eauto using lib_is_step. }
  destruct (single a) eqn:Ha; [|destruct a; try done; by eapply Hlib].
  assert (fire a (sf S) ≫= observe S = Some S1) as (s2 & H2 & H3)%bind_Some by (destruct a; done).
  destruct (fire_is_step _ _ _ Ha H2) as [t Ht]. by eapply observe_sound.
Qed.
Lemma splayed wait l (f : sched → Prop) : 
  match splay l (Sched (fifo_init wait) cont_init) with Some x => f x | None => False end →
  ∃ S, sreach wait S ∧ f S.
Proof.
  destruct (splay l (Sched (fifo_init wait) cont_init)) as [S|] eqn:E; [|done]. intros Hf. exists S.
  split; [|done]. eapply splay_sound; [constructor|done].
Qed.

Definition threwb (h : handle) (l : list (fev req)) : bool :=
  existsb (λ n, match l !! n, frames (take n l) with
                | Some FThrow, Frame _ _ (Some (IUser (RCreate h'))) :: _ => h' =? h
                | _, _ => false
                end) (seq 0 (length l)).
Lemma threwb_ok h l : threwb h l = true ↔ ctor_threw h l.
Proof.
  unfold threwb. rewrite existsb_exists. split.
  - intros (n & _ & Hn). destruct (l !! n) as [e|] eqn:E; [|done]. destruct e; try done.
    destruct (frames (take n l)) as [|[m k [[r|]|]] fs] eqn:Ef; try done. destruct r; try done.
    apply Nat.eqb_eq in Hn as ->. exists (take n l), (drop (Datatypes.S n) l), m, k, fs.
    split; [by rewrite take_drop_middle|done].
  - intros (l1 & l2 & n & k & fs & -> & Hf). exists (length l1). split.
    + apply in_seq. rewrite app_length. simpl. lia.
    + rewrite list_lookup_middle by done. rewrite take_app, Hf. apply Nat.eqb_refl.
Qed.

(** One thread creates two processors and uses them; another thread sends an event to the first, which throws, and
    one after its destruction. *)
Definition office_day : list (act req) :=
  queues 1 (IUser (RCreate 1)) ++ queues 1 (IUser (RInitiate 1)) ++ queues 1 (IUser (RCreate 2))
  ++ queues 2 (IUser (REvent 1 7)) ++ queues 1 (IUser (RInitiate 2)) ++ queues 2 (IUser (RDestroy 1))
  ++ queues 1 (IUser (REvent 1 8)) ++ queues 1 (IUser (RInitiate 0))
  ++ [ARun 0; ALib 0 7; ARet; ALib 0 7; ARet; ALib 0 7; ARet; ALib 0 7; AThrow;
      ARun 0; ALib 0 7; ARet; ALib 0 7; ARet; ALib 0 7; ARet; ALib 0 7; ARet; ALib 0 5].

Example office_day_ok : ∃ S, sreach false S ∧ (fstack (sf S) = [] ∧
  reqs_of 1 (started (ftr (sf S))) = [RCreate 1; RInitiate 1; REvent 1 7; RDestroy 1; REvent 1 8] ∧
  reqs_of 0 (pushed (ftr (sf S))) = [RInitiate 0] ∧
  clog (scont S) = [AConstruct 1; AInit 1; AConstruct 2; AEvent 1 7; AInit 2; ADestruct 1] ∧
  threwb 1 (ftr (sf S)) = false).
Proof. apply (splayed _ office_day). by vm_compute. Qed.

(** ** C39 *)

Lemma cur_none_held h S : J h S → fstack (sf S) = [] → pheld (view h (scont S)) = false.
Proof.
  intros [H _] Hs. destruct (pheld (view h (scont S))); [|done].
  destruct (H eq_refl) as (r & Hc & _). unfold cur in Hc. by rewrite Hs in Hc.
Qed.

(** Between calls of operator(), a processor has experienced exactly what the requests executed for its handle say:
    construction, then every request in order up to its destruction, and nothing afterwards, whatever happens to the
    other processors and whichever requests threw. *)
Theorem C39_applied : ∀ wait S h, sreach wait S → h ≠ 0 → ¬ ctor_threw h (ftr (sf S)) → fstack (sf S) = [] →
  log_of h (clog (scont S)) = served h (reqs_of h (started (ftr (sf S)))).
Proof.
  intros wait S h Hr Hh Hn Hs. pose proof (J_reach _ _ _ Hh Hr) as HJ.
  pose proof (cur_none_held _ _ HJ Hs) as Hp. destruct HJ as [_ HJ]. rewrite view_log.
  destruct HJ as [(HR & _ & _ & _ & Hl & _)|[[? _]|[(_ & Hc & _)|[(L & HR & _ & _ & [(_ & _ & _ & Hl)|(_ & _ & _ & Hl)]) _]]]].
  - by rewrite HR, Hl.
  - done.
  - unfold cur in Hc. by rewrite Hs in Hc.
  - done.
  - by rewrite Hp, app_nil_r in Hl.
Qed.
Print Assumptions C39_applied.

(** At any moment nothing else has happened to it. *)
Theorem C39_nothing_else : ∀ wait S h, sreach wait S → h ≠ 0 → ¬ ctor_threw h (ftr (sf S)) →
  log_of h (clog (scont S)) `prefix_of` served h (reqs_of h (started (ftr (sf S)))).
Proof.
  intros wait S h Hr Hh Hn. destruct (J_reach _ _ _ Hh Hr) as [_ HJ]. rewrite view_log.
  destruct HJ as [(HR & _ & _ & _ & Hl & _)|[[? _]|[(HR & _ & [-> | ->] & _)|[(L & HR & _ & _ & [(_ & _ & _ & Hl)|(_ & _ & _ & Hl)]) _]]]].
  - by rewrite HR, Hl.
  - done.
  - by rewrite HR.
  - apply prefix_nil.
  - by rewrite Hl.
  - rewrite <- Hl. by apply prefix_app_r.
Qed.
Print Assumptions C39_nothing_else.

(** Requests for a handle are executed in the order in which they were queued, the creation first. *)
Theorem C39_order : ∀ wait S h, sreach wait S → h ≠ 0 →
  reqs_of h (started (ftr (sf S))) `prefix_of` reqs_of h (pushed (ftr (sf S))) ∧
  (reqs_of h (pushed (ftr (sf S))) = [] ∨ ∃ L, reqs_of h (pushed (ftr (sf S))) = RCreate h :: L ∧ RCreate h ∉ L).
Proof.
  intros wait S h Hr Hh. pose proof (freach_inv _ _ (sreach_freach _ _ Hr)) as I. split.
  - rewrite (i_fifo _ I), reqs_of_app. by apply prefix_app_r.
  - destruct (K_reach _ _ _ Hh Hr) as [(_ & _ & ?)|[(_ & ? & _)|(_ & ? & _)]]; auto.
Qed.
Print Assumptions C39_order.

(** After the destruction of the processor nothing happens to it any more. *)
Theorem C39_ignored : ∀ wait S h L1 L2, sreach wait S → h ≠ 0 → ¬ ctor_threw h (ftr (sf S)) →
  reqs_of h (started (ftr (sf S))) = RCreate h :: L1 ++ RDestroy h :: L2 → fstack (sf S) = [] →
  ∃ l, log_of h (clog (scont S)) = AConstruct h :: l ++ [ADestruct h] ∧ ADestruct h ∉ l ∧ length l ≤ length L1.
Proof.
  intros wait S h L1 L2 Hr Hh Hn HR Hs. rewrite (C39_applied wait) by done. rewrite HR. cbn [served]. clear.
  induction L1 as [|r L1 (l & IH & Hl & Hle)]; [exists []; split; [done|]; split; [by apply not_elem_of_nil|done]|].
  injection IH as IH.
  assert (∀ a, a ≠ ADestruct h → AConstruct h :: a :: serve h (L1 ++ RDestroy h :: L2) =
    AConstruct h :: (a :: l) ++ [ADestruct h] ∧ ADestruct h ∉ a :: l ∧ length (a :: l) ≤ Datatypes.S (length L1)) as Ha.
  { intros a Ha. simpl. rewrite IH. split; [done|]. split; [|lia]. by apply not_elem_of_cons. }
  destruct r; try (by eexists; apply Ha).
  - exists l. cbn. rewrite IH. split; [done|]. split; [done|lia].
  - exists []. split; [done|]. split; [by apply not_elem_of_nil|simpl; lia].
  - exists l. cbn. rewrite IH. split; [done|]. split; [done|lia].
Qed.
Print Assumptions C39_ignored.

(** No request is ever executed on a processor that does not exist. *)
Theorem C39_no_fault : ∀ wait S h, sreach wait S → h ≠ 0 → ¬ ctor_threw h (ftr (sf S)) →
  AFault h ∉ clog (scont S).
Proof.
  intros wait S h Hr Hh Hn Hf. destruct (C39_nothing_else _ _ _ Hr Hh Hn) as [k Hk].
  assert (AFault h ∈ served h (reqs_of h (started (ftr (sf S))))) as Hin.
  { rewrite Hk. apply elem_of_app. left. by apply elem_of_list_filter. }
  destruct (reqs_of h (started (ftr (sf S)))) as [|r L]; [by apply elem_of_nil in Hin|].
  destruct r; simpl in Hin; try (by apply elem_of_nil in Hin).
  apply elem_of_cons in Hin as [?|Hin]; [done|]. clear -Hin. induction L as [|r L IH]; [by apply elem_of_nil in Hin|].
  destruct r; simpl in Hin; rewrite ?elem_of_cons, ?elem_of_nil in Hin; naive_solver.
Qed.
Print Assumptions C39_no_fault.

(** Requests on a default-constructed handle are ignored. *)
Lemma no_zero wait S : sreach wait S →
  (∀ t, IUser (RCreate 0) ∉ outstanding (fpc (sf S) t)) ∧ IUser (RCreate 0) ∉ pushed (ftr (sf S)).
Proof.
  induction 1 as [|t S S' Hr [IH1 IH2] Hs]; [split; [intros t|]; by apply not_elem_of_nil|].
  destruct Hs as [s s' c Hs E _|s s' c c' e Hs E Hl _ Heff]; simpl in *.
  { rewrite E. split; [|done]. intros u. by rewrite (step_outs _ _ _ _ Hs E). }
  assert (∀ u, _) as Ho by (intros u; exact (step_outs_event t s s' e u Hs E)).
  rewrite E, pushed_app.
  destruct e as [v i|v i| | | | | | | | |v i]; simpl in Ho;
    try (split; [intros u; by rewrite Ho|by rewrite app_nil_r]).
  - split; [|by rewrite app_nil_r]. intros u. destruct (Ho u) as [_ ->]. case_decide; [|done].
    intros <-%elem_of_list_singleton. simpl in Hl. by destruct Hl.
  - split.
    + intros u. destruct (Ho u) as [_ ->]. case_decide; [by apply not_elem_of_nil|done].
    + apply not_elem_of_app. split; [done|]. change (pushed [FPush v i]) with [i]. intros Hi%elem_of_list_singleton.
      apply (IH1 v). rewrite Hi. destruct (Ho 0) as [-> _]. by apply elem_of_list_singleton.
  - split; [|by rewrite app_nil_r]. intros u. destruct (Ho u) as [_ ->]. case_decide; [by apply not_elem_of_nil|done].
Qed.
Lemma zero_view wait S : sreach wait S → view 0 (scont S) = Part 0 false false false [].
Proof.
  intros Hr.
  induction Hr as [|t S S' Hr IH Hs]; [done|].
  pose proof (no_zero _ _ Hr) as [Hz1 Hz2]. pose proof (no_zero _ _ (sreach_step _ _ _ _ Hr Hs)) as [_ Hz2'].
  pose proof (freach_inv _ _ (sreach_freach _ _ Hr)) as I.
  pose proof (freach_inv _ _ (sreach_freach _ _ (sreach_step _ _ _ _ Hr Hs))) as I'.
  destruct Hs as [s s' c Hs E _|s s' c c' e Hs E Hl _ Heff]; simpl in *; [done|].
  rewrite (i_fifo _ I) in Hz2. rewrite (i_fifo _ I') in Hz2'.
  assert (cheld c ≠ Some 0) as Hh by (apply cheld_view; by rewrite IH).
  assert (∀ r ok, cur s = Some r → view 0 (exec_end ok r c) = Part 0 false false false []) as Hend.
  { intros r ok Hc. destruct (decide (handle_of r = Some 0)) as [Hr0|Hr0]; [|by rewrite frame_end].
    apply (cur_started _ _ I) in Hc.
    assert (r ≠ RCreate 0) as Hrc by (intros ->; apply Hz2, elem_of_app; auto).
    destruct r; simpl in *; simplify_eq; rewrite view_op_end_other by done; done. }
  assert (∀ ok : bool,
    view 0 match fstack s with Frame _ _ (Some (IUser r)) :: _ => exec_end ok r c | _ => c end =
      Part 0 false false false []) as Hend'.
  { intros ok. unfold cur in Hend. destruct (fstack s) as [|[n k [[r|]|]] fs]; auto. }
  destruct Heff as [_|g ->]; [|done].
  destruct e as [v [r|]|v i|v|v|n|[r|]| | |k|b|v [r|]]; simpl; auto.
  - destruct r as [g| | | | |]; auto. destruct Hl as [Hg _]. unfold create_call. by rewrite view_set_use.
  - assert (r ≠ RCreate 0) as Hrc.
    { intros ->. apply Hz2', elem_of_app. left. rewrite E, started_app. apply elem_of_app. right. by left. }
    destruct (decide (handle_of r = Some 0)) as [Hr0|Hr0].
    + assert (cuse c 0 = 0) as Hu by (rewrite view_use, IH; done).
      destruct r; simpl in *; simplify_eq; unfold op_start, destroy_start; rewrite decide_True by done; done.
    + destruct (handle_of r) as [g|] eqn:Eg; [|by destruct r]. rewrite (frame_start 0 g); [done|done|congruence|done].
  - destruct r as [g| | | | |]; auto. destruct (step_outs_event t s s' _ 0 Hs E) as [Hv _].
    rewrite view_unshare; [done|]. intros ->. apply (Hz1 v). rewrite Hv. by left.
Qed.
(** A call of create_processor() that throws leaves nothing behind: no holder, and nothing is ever requested for the handle,
    which nobody knows. *)
Theorem C39_create_threw : ∀ wait S t h, sreach wait S → FFail t (IUser (RCreate h)) ∈ ftr (sf S) →
  cuse (scont S) h = 0 ∧ h ∉ cset (scont S) ∧ log_of h (clog (scont S)) = [] ∧ reqs_of h (pushed (ftr (sf S))) = [].
Proof.
  intros wait S t h Hr Hf.
  assert (¬ made h (ftr (sf S))) as Hm by (intros [_ H]; by apply (H t)).
  assert (h ≠ 0) as Hh.
  { intros ->. destruct (fail_called _ _ (sreach_freach _ _ Hr) t (IUser (RCreate 0))) as [_ Hc]. specialize (Hc Hf). clear Hf Hm.
    induction Hr as [|u S S' Hr IH Hs]; [by apply elem_of_nil in Hc|].
    destruct Hs as [s s' c Hs E _|s s' c c' e Hs E Hl _ Heff]; simpl in *; rewrite E in Hc; [by apply IH|].
    apply elem_of_app in Hc as [Hc|<-%elem_of_list_singleton]; [by apply IH|]. by destruct Hl. }
  pose proof (K_reach _ _ _ Hh Hr) as HK. pose proof (J_reach _ _ _ Hh Hr) as [_ HJ].
  pose proof (i_fifo _ (freach_inv _ _ (sreach_freach _ _ Hr))) as If.
  destruct HK as [(_ & _ & H3)|[[? _]|[? _]]]; [|done..].
  assert (reqs_of h (started (ftr (sf S))) = []) as HR.
  { apply (f_equal (reqs_of h)) in If. rewrite reqs_of_app, H3 in If. symmetry in If. by apply app_eq_nil in If as [? _]. }
  destruct HJ as [(_ & _ & Hps & _ & Hlog & _ & Hu)|[(_ & L & H & _)|[(H1 & _)|[(L & H1 & _) _]]]]; [|congruence..].
  rewrite view_use, view_log. split_and!; [by apply Hu|by apply cset_view|done|done].
Qed.
Print Assumptions C39_create_threw.
Theorem C39_default_handle : ∀ wait S, sreach wait S → log_of 0 (clog (scont S)) = [].
Proof. intros wait S Hr. by rewrite view_log, (zero_view _ _ Hr). Qed.
Print Assumptions C39_default_handle.

Example C39_example : ∃ S, sreach false S ∧ 1 ≠ 0 ∧ ¬ ctor_threw 1 (ftr (sf S)) ∧ fstack (sf S) = [] ∧
  reqs_of 1 (started (ftr (sf S))) = RCreate 1 :: [RInitiate 1; REvent 1 7] ++ RDestroy 1 :: [REvent 1 8] ∧
  log_of 1 (clog (scont S)) = [AConstruct 1; AInit 1; AEvent 1 7; ADestruct 1].
Proof.
  destruct office_day_ok as (S & Hr & Hs & HR & _ & Hl & Ht). exists S. split; [done|]. split; [done|].
  split; [|rewrite Hl; done]. intros H%threwb_ok. congruence.
Qed.
(** There is no memory for the request of create_processor(); then another processor is created. *)
Example C39_create_threw_example : ∃ S, sreach false S ∧ FFail 1 (IUser (RCreate 1)) ∈ ftr (sf S) ∧
  log_of 2 (clog (scont S)) = [AConstruct 2] ∧ cuse (scont S) 2 = 1.
Proof.
  destruct (splayed false ([ACall 1 (IUser (RCreate 1)); ALib 1 1; AFail 1] ++ queues 1 (IUser (RCreate 2))
    ++ [ARun 0; ALib 0 7; ARet]) (λ S, ftr (sf S) !! 1 = Some (FFail 1 (IUser (RCreate 1))) ∧
    log_of 2 (clog (scont S)) = [AConstruct 2] ∧ cuse (scont S) 2 = 1)) as (S & Hr & H1 & H2);
    [vm_compute; tauto|].
  exists S. split; [done|]. split; [|done]. by eapply elem_of_list_lookup_2.
Qed.
Example C39_default_handle_example : ∃ S, sreach false S ∧ RInitiate 0 ∈ reqs_of 0 (pushed (ftr (sf S))).
Proof.
  destruct office_day_ok as (S & Hr & _ & _ & HR & _). exists S. split; [done|]. rewrite HR. by left.
Qed.

(** ** C40 *)

(** The holder of a processor whose constructor threw stays in the set, without a processor: processor_container.hpp
    309-316 inserts the holder before it constructs the processor.  The next request on the handle locks the weak_ptr
    successfully and calls through a null pointer (lines 391-420). *)
Theorem C40_refuted :
  ∃ S h, sreach false S ∧ ctor_threw h (ftr (sf S)) ∧
    reqs_of h (started (ftr (sf S))) = [RCreate h; RInitiate h] ∧ AFault h ∈ clog (scont S).
Proof.
  destruct (splayed false (queues 1 (IUser (RCreate 1)) ++ queues 1 (IUser (RInitiate 1))
    ++ [ARun 0; ALib 0 7; AThrow; ARun 0; ALib 0 7])
    (λ S, reqs_of 1 (started (ftr (sf S))) = [RCreate 1; RInitiate 1] ∧ threwb 1 (ftr (sf S)) = true ∧
      clog (scont S) = [AConstruct 1; AFault 1])) as (S & Hr & HR & Ht & Hl); [by vm_compute|].
  exists S, 1. split; [done|]. split; [by apply threwb_ok|]. split; [done|]. rewrite Hl. right. by left.
Qed.
Print Assumptions C40_refuted.
(** All that can happen to a handle whose creation failed: as long as nothing was requested of it, and if the first
    request is its destruction, everything is ignored, also what is requested later; any other first request is
    undefined behaviour.  If already the insertion into the set of processors failed, then there is no holder and everything
    is ignored. *)
Theorem C40_exact_partial : ∀ wait S h, sreach wait S → h ≠ 0 → ctor_threw h (ftr (sf S)) →
  (reqs_of h (started (ftr (sf S))) = [RCreate h] ∧ log_of h (clog (scont S)) = [AConstruct h]) ∨
  (∃ L, reqs_of h (started (ftr (sf S))) = RCreate h :: RDestroy h :: L ∧ log_of h (clog (scont S)) = [AConstruct h]) ∨
  (∃ r, reqs_of h (started (ftr (sf S))) = [RCreate h; r] ∧ r ≠ RDestroy h ∧
    log_of h (clog (scont S)) = [AConstruct h; AFault h]) ∨
  (∃ L, reqs_of h (started (ftr (sf S))) = RCreate h :: L ∧ log_of h (clog (scont S)) = [] ∧ cuse (scont S) h = 0).
Proof.
  intros wait S h Hr Hh Ht. destruct (J_reach _ _ _ Hh Hr) as [_ HJ]. rewrite view_log.
  destruct HJ as [(HR & _)|[(_ & L & HR & _ & _ & HL)|[(_ & _ & _ & ?)|[_ ?]]]].
  - by destruct (threw_started h _ Ht).
  - rewrite HR. destruct HL as [(-> & _ & _ & _ & Hl)|[(L' & -> & _ & _ & Hl)|[(r & -> & Hn & _ & Hl)|(_ & Hu & _ & Hl)]]].
    + by left.
    + right; left. by exists L'.
    + right; right; left. by exists r.
    + right; right; right. eauto.
  - done.
  - done.
Qed.
Print Assumptions C40_exact_partial.
(** The handle is destroyed and then used. *)
Example C40_exact_example : ∃ S, sreach false S ∧ 1 ≠ 0 ∧ ctor_threw 1 (ftr (sf S)) ∧
  reqs_of 1 (started (ftr (sf S))) = [RCreate 1; RDestroy 1; RInitiate 1] ∧ clog (scont S) = [AConstruct 1].
Proof.
  destruct (splayed false (queues 1 (IUser (RCreate 1)) ++ queues 1 (IUser (RDestroy 1)) ++ queues 1 (IUser (RInitiate 1))
    ++ [ARun 0; ALib 0 7; AThrow; ARun 0; ALib 0 7; ARet; ALib 0 7; ARet])
    (λ S, reqs_of 1 (started (ftr (sf S))) = [RCreate 1; RDestroy 1; RInitiate 1] ∧ threwb 1 (ftr (sf S)) = true ∧
      clog (scont S) = [AConstruct 1])) as (S & Hr & HR & Ht & Hl); [by vm_compute|].
  exists S. split; [done|]. split; [done|]. split; [by apply threwb_ok|]. done.
Qed.
(** There is no memory for the entry of the set; then the handle is used. *)
Example C40_full_example : ∃ S, sreach false S ∧ 1 ≠ 0 ∧ ctor_threw 1 (ftr (sf S)) ∧
  reqs_of 1 (started (ftr (sf S))) = [RCreate 1; RInitiate 1; REvent 1 7] ∧ clog (scont S) = [].
Proof.
  destruct (splayed false (queues 1 (IUser (RCreate 1)) ++ queues 1 (IUser (RInitiate 1)) ++ queues 1 (IUser (REvent 1 7))
      ++ [ARun 0; ALib 0 6]) (λ A, fpc (sf A) worker = TGot (Some (IUser (RCreate 1))) ∧ fstack (sf A) = [Frame 0 0 None] ∧
    faultb (scont A) = false ∧
    match splay [AThrow; ARun 0; ALib 0 7; ARet; ALib 0 7; ARet]
      (Sched (goto (with_stack (sf A) [Frame 0 0 (Some (IUser (RCreate 1)))]) worker TUser [FStart (IUser (RCreate 1))])
        (scont A)) with
    | Some B => reqs_of 1 (started (ftr (sf B))) = [RCreate 1; RInitiate 1; REvent 1 7] ∧ clog (scont B) = [] ∧
        threwb 1 (ftr (sf B)) = true
    | None => False
    end)) as ([s c] & Hr & Hp & Hs & Hf%faultb_ok & H); [vm_compute; tauto|].
  cbn [sf scont] in *.
  match type of H with match splay ?l ?x with _ => _ end =>
    destruct (splay l x) as [B|] eqn:E; [|done]; assert (sreach false x) as Hx end.
  { eapply (sreach_step _ worker); [exact Hr|].
    eapply sstep_event; [exact (SGotUser s _ [] _ Hp Hs)|reflexivity|done|done|by eapply effects_full]. }
  exists B. split; [by eapply splay_sound|]. destruct H as (H1 & H2 & H3). split; [done|]. split; [by apply threwb_ok|done].
Qed.
