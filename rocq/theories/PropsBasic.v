(** Properties of the static structure, the history keys and the event loop bound. *)
From Verif Require Import CommonContext HistoryKey QueueMono Tests.

(** ** C33: the innermost common context of a transition *)
Theorem C33_common_context ch c d :
  wf_chart ch = true →
  ∃ i x t, common_context ch c d = Some (i, x) ∧ innermost_common ch x c d ∧
    termination_state ch c i = Some t ∧ parent ch t = x ∧ within ch t c.
Proof. intros Hwf. exact (common_context_spec ch Hwf c d). Qed.
Print Assumptions C33_common_context.

(** [t] and [e]: the states directly below the common context on the source and destination side. *)
Theorem C33_same_region ch c d x t e :
  wf_chart ch = true →
  innermost_common ch x c (init_cls d) →
  parent ch t = x → within ch t c → parent ch e = x → within ch e (init_cls d) →
  init_ok ch d = true →
  transit_ok ch c d = true ↔ region ch t = region ch e.
Proof. intros Hwf. exact (transit_ok_iff ch Hwf c d x t e). Qed.
Print Assumptions C33_same_region.

(** A transition from S11 (3) to D0S21 (11) of the library's transition test: the common context is S0,
    S1 is left and S2 is entered. *)
Example C33_example :
  wf_chart TransitionTest.chart1 = true ∧
  common_context TransitionTest.chart1 3 11 = Some (1, Some 0) ∧
  transit_ok TransitionTest.chart1 3 (IState 11) = true.
Proof. vm_compute. done. Qed.
(** From D1S0 (5), which is in another region of S0, it does not compile. *)
Example C33_example_region : transit_ok TransitionTest.chart1 5 (IState 11) = false.
Proof. vm_compute. done. Qed.

(** ** C43: history keys *)
Theorem C43_strict_weak_order {T} (less eqb : T → T → bool) :
  id_order less eqb →
  (∀ k, key_less less eqb k k = false) ∧
  (∀ x y z, key_less less eqb x y = true → key_less less eqb y z = true → key_less less eqb x z = true) ∧
  (∀ x y, key_less less eqb x y = false ∧ key_less less eqb y x = false ↔ x = y).
Proof.
  intros HO. split; [exact (key_irrefl _ _ HO)|]. split; [exact (key_trans _ _ HO)|].
  intros x y. split; [intros [H1 H2]; exact (key_equiv _ _ HO x y H1 H2)|].
  intros ->. split; exact (key_irrefl _ _ HO y).
Qed.
Print Assumptions C43_strict_weak_order.

(** A std::map with that comparison behaves, for every sequence of the operations the machine performs, as
    a function of (context class, region), which is what the machine model uses. *)
Theorem C43_history_map {T} (less eqb : T → T → bool) (tid : option cls → T) l :
  id_order less eqb → (∀ x y, tid x = tid y → x = y) →
  smap_run less eqb tid l [] = hist_run l ∅.
Proof. intros HO Hi. exact (smap_hist_run less eqb tid HO Hi l). Qed.
Print Assumptions C43_history_map.

Example C43_example :
  id_order (λ x y : nat, bool_decide (x < y)) (λ x y, bool_decide (x = y)) ∧
  smap_run (λ x y : nat, bool_decide (x < y)) (λ x y, bool_decide (x = y))
    (λ x, match x with None => 7 | Some c => 8 + c end)
    [HStore (Some 3, 1) 5; HStore (Some 3, 0) 4; HStore (Some 1, 1) 2; HLookup (Some 3, 0);
     HClear (Some 3, 0); HLookup (Some 3, 0); HLookup (Some 3, 1); HReset; HLookup (Some 3, 1)] []
  = [Some 4; None; Some 5; None].
Proof.
  split; [|vm_compute; done]. split.
  - intros x y. apply bool_decide_eq_true.
  - intros x. apply bool_decide_eq_false. lia.
  - intros x y z. rewrite !bool_decide_eq_true. lia.
  - intros x y. rewrite !bool_decide_eq_true. lia.
Qed.

(** ** C44: waiting longer does not change anything *)
Theorem C44_call {W} (ch : chart) (U : user W) o o' s :
  more_iterations o o' → (call ch U o s).1 ≠ Div → call ch U o' s = call ch U o s.
Proof. exact (call_mono ch U o o' s). Qed.
Print Assumptions C44_call.
Theorem C44_run {W} (ch : chart) (U : user W) l l' s :
  Forall2 more_iterations l l' → Div ∉ (run ch U l s).1 → run ch U l' s = run ch U l s.
Proof. exact (run_mono ch U l l' s). Qed.
Print Assumptions C44_run.

(** Calls of the deferral test: with 2 iterations each all of them end, with none some do not (the
    deferred event comes back in the last call). *)
Example C44_example :
  let l n := [OpInitiate n; OpProcess n (ev 0); OpProcess n (ev 2)] in
  (run DeferralTest.chart4 DeferralTest.counting (l 2) (fresh 0)).1 = [Ret tt; Ret tt; Ret tt] ∧
  (run DeferralTest.chart4 DeferralTest.counting (l 0) (fresh 0)).1 = [Ret tt; Ret tt; Div].
Proof. vm_compute. done. Qed.
