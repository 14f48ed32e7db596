(** C01-C04, C20, C32: no undefined behaviour, lifetimes of state objects, the active configuration. *)
From Verif Require Import Seen Demo.

(** ** C01: no undefined behaviour, no failing assertion *)
Theorem C01_call {W} (ch : chart) (U : user W) s o r s' :
  wf_chart ch = true → user_ok ch U → reach ch U s → op_ok ch o = true → op_allowed ch U o s →
  call ch U o s = (r, s') → ∀ f, r ≠ Fault f.
Proof.
  intros Hwf HU Hs Ho Ha E f ->. destruct (reach_backed ch U Hwf HU s Hs) as [a Hb].
  destruct (call_backed ch U Hwf HU _ _ _ _ _ Hb Ho Ha E) as (_ & _ & _ & [] & _).
Qed.
Print Assumptions C01_call.
Theorem C01_destroy {W} (ch : chart) (U : user W) s r s' :
  wf_chart ch = true → user_ok ch U → reach ch U s → destroy ch U s = (r, s') → r = Ret tt.
Proof. intros Hwf HU Hs E. by destruct (destroyed ch U Hwf HU s r s' Hs E). Qed.
Print Assumptions C01_destroy.

(** The machine of Demo.v, which went through an exception, a deferral and a history entry, processes an
    event that terminates a state: the deferred events come back, none is consumed. *)
Example C01_example :
  wf_chart Demo.chart5 = true ∧ user_ok Demo.chart5 Demo.U ∧ reach Demo.chart5 Demo.U Demo.demo ∧
  ∃ s', call Demo.chart5 Demo.U (Demo.p 5) Demo.demo = (Ret tt, s') ∧ leaves s' = [4].
Proof.
  split; [vm_compute; done|]. split; [exact Demo.U_ok|]. split; [exact Demo.demo_reach|].
  destruct (called_ret Demo.chart5 Demo.U (Demo.p 5) Demo.demo (λ s', bool_decide (leaves s' = [4]))) as (s' & H1 & H2);
    [by_eval|]. exists s'. split; [done|]. by apply bool_decide_eq_true in H2.
Qed.

(** ** C02: every state object is destroyed exactly once *)
Theorem C02_destroyed_once {W} (ch : chart) (U : user W) s t1 b p c t2 :
  wf_chart ch = true → user_ok ch U → seen ch U s → tr s = t1 ++ Obs b (ODtor p c) :: t2 →
  OCtor p c ∈ map ob t1 ∧ ODtor p c ∉ map ob t1 ∧ ODtor p c ∉ map ob t2.
Proof. intros Hwf HU Hs. exact (orderly_dtor ch _ _ _ _ _ _ (seen_orderly ch U Hwf HU s Hs)). Qed.
Print Assumptions C02_destroyed_once.

(** An address is used by one object only, and a constructor completes at most once. *)
Theorem C02_constructed_once {W} (ch : chart) (U : user W) s t1 b p c t2 :
  wf_chart ch = true → user_ok ch U → seen ch U s → tr s = t1 ++ Obs b (OCtor p c) :: t2 →
  ∀ k x, k ∈ map ob t1 → about k = Some x → x.2 ≠ p.
Proof. intros Hwf HU Hs. exact (orderly_ctor ch _ _ _ _ _ _ (seen_orderly ch U Hwf HU s Hs)). Qed.
Print Assumptions C02_constructed_once.

Theorem C02_constructor_threw {W} (ch : chart) (U : user W) s p c c' :
  wf_chart ch = true → user_ok ch U → seen ch U s → OCtorThrow p c ∈ map ob (tr s) →
  OCtor p c' ∉ map ob (tr s) ∧ ODtor p c' ∉ map ob (tr s).
Proof. intros Hwf HU Hs. exact (orderly_ctor_throw ch _ _ _ _ (seen_orderly ch U Hwf HU s Hs)). Qed.
Print Assumptions C02_constructor_threw.

Theorem C02_terminated {W} (ch : chart) (U : user W) s :
  wf_chart ch = true → user_ok ch U → seen ch U s → terminated s = true →
  ∀ p c, OCtor p c ∈ map ob (tr s) → ODtor p c ∈ map ob (tr s).
Proof. intros Hwf HU Hs Ht p c. exact (terminated_all_destroyed ch U Hwf HU s p c Hs Ht). Qed.
Print Assumptions C02_terminated.

(** What is in memory is exactly what was constructed and not yet destroyed: nothing leaks. *)
Theorem C02_memory {W} (ch : chart) (U : user W) s c p :
  wf_chart ch = true → user_ok ch U → seen ch U s →
  active s (c, p) ↔ OCtor p c ∈ map ob (tr s) ∧ ODtor p c ∉ map ob (tr s).
Proof. intros Hwf HU Hs. exact (seen_active ch U Hwf HU s (c, p) Hs). Qed.
Print Assumptions C02_memory.

Example C02_example :
  seen Demo.chart5 Demo.U Demo.demo ∧
  map ob (tr Demo.demo) !! 43 = Some (ODtor 4 2) ∧      (* destroyed without exit() *)
  map ob (tr Demo.demo) !! 35 = Some (OCtorThrow 6 7) ∧ (* never destroyed *)
  ∃ s', call Demo.chart5 Demo.U OpTerminate Demo.demo = (Ret tt, s') ∧ terminated s' = true ∧ reach Demo.chart5 Demo.U s'.
Proof.
  split; [apply seen_reach, Demo.demo_reach|]. split; [by_compute|]. split; [by_compute|].
  destruct (called_ret Demo.chart5 Demo.U OpTerminate Demo.demo terminated) as (s' & H1 & H2); [by_eval|].
  exists s'. split; [done|]. split; [done|]. by apply (reach_ret _ _ Demo.demo OpTerminate); [exact Demo.demo_reach|..].
Qed.

(** ** C03: the machine is stable between calls *)
Theorem C03_complete {W} (ch : chart) (U : user W) s c p :
  wf_chart ch = true → user_ok ch U → seen ch U s → active s (c, p) → inner ch c ≠ [] →
  ∃ c' p', active s (c', p') ∧ parent ch c' = Some c.
Proof.
  intros Hwf HU Hs Ha Hi. apply (seen_inner ch U Hwf HU s c p Hs Ha).
  apply bool_decide_eq_false. unfold nreg. by destruct (inner ch c).
Qed.
Print Assumptions C03_complete.
Theorem C03_terminated {W} (ch : chart) (U : user W) s :
  wf_chart ch = true → user_ok ch U → seen ch U s →
  (terminated s = true ↔ leaves s = []) ∧ (terminated s = true ↔ ∀ x, ¬ active s x).
Proof.
  intros Hwf HU Hs. split; [exact (terminated_leaves ch U Hwf HU s Hs)|exact (terminated_iff ch U Hwf HU s Hs)].
Qed.
Print Assumptions C03_terminated.
Example C03_example :
  seen Demo.chart5 Demo.U Demo.demo ∧ active Demo.demo (0, 7) ∧ inner Demo.chart5 0 ≠ [] ∧ terminated Demo.demo = false.
Proof.
  split; [apply seen_reach, Demo.demo_reach|]. split; [|split; vm_compute; done].
  eexists. split; vm_compute; reflexivity.
Qed.

(** ** C04: the active configuration is well formed *)
Theorem C04_regions {W} (ch : chart) (U : user W) s x y :
  wf_chart ch = true → user_ok ch U → seen ch U s → active s x → active s y →
  parent ch x.1 = parent ch y.1 → pos ch x.1 = pos ch y.1 → x = y.
Proof.
  intros Hwf HU Hs Hx Hy H1 H2. apply (seen_region ch U Hwf HU s x y Hs Hx Hy). unfold region. by rewrite H1, H2.
Qed.
Print Assumptions C04_regions.
Theorem C04_outer {W} (ch : chart) (U : user W) s c p q :
  wf_chart ch = true → user_ok ch U → seen ch U s → active s (c, p) → parent ch c = Some q →
  ∃ p', active s (q, p').
Proof. intros Hwf HU Hs. exact (seen_outer ch U Hwf HU s c p q Hs). Qed.
Print Assumptions C04_outer.
Theorem C04_iteration {W} (ch : chart) (U : user W) s :
  wf_chart ch = true → user_ok ch U → seen ch U s →
  NoDup (leaves s) ∧ ∀ c, c ∈ leaves s ↔ inner ch c = [] ∧ ∃ p, active s (c, p).
Proof.
  intros Hwf HU Hs. destruct (seen_leaves ch U Hwf HU s Hs) as [H1 H2]. split; [exact H1|]. intros c. rewrite H2.
  unfold is_leaf, nreg. rewrite bool_decide_eq_true, length_zero_iff_nil. done.
Qed.
Print Assumptions C04_iteration.
Example C04_example :
  seen Demo.chart5 Demo.U Demo.demo ∧ active Demo.demo (1, 14) ∧ active Demo.demo (2, 11) ∧
  parent Demo.chart5 1 = Some 0 ∧ parent Demo.chart5 2 = Some 0 ∧ leaves Demo.demo = [2; 4].
Proof.
  split; [apply seen_reach, Demo.demo_reach|]. split; [|split; [|split_and!; vm_compute; reflexivity]].
  all: eexists; split; vm_compute; reflexivity.
Qed.

(** ** C20: exit() is called at most once, right before destruction *)
Theorem C20_exit {W} (ch : chart) (U : user W) s t1 b p c t2 :
  wf_chart ch = true → user_ok ch U → seen ch U s → tr s = t1 ++ Obs b (OExit p c) :: t2 →
  OExit p c ∉ map ob t1 ∧ OExit p c ∉ map ob t2 ∧
  ∃ u th b' t3, t2 = u ++ th ++ Obs b' (ODtor p c) :: t3 ∧
    Forall (λ o, user_call (ob o) = true) u ∧ 
    (th = [] ∨ (∃ b'' y, th = [Obs b'' (OThrow y)]) ∨
     ∃ b'' x y, th = [Obs b'' (ORefused (ARecord c x)); Obs b'' (OThrow y)]).
Proof.
  intros Hwf HU Hs E. pose proof (seen_exits ch U Hwf HU s Hs) as He.
  destruct (exit_once ch _ _ _ _ _ _ (seen_orderly ch U Hwf HU s Hs) He E). split; [done|]. split; [done|].
  by eapply He.
Qed.
Print Assumptions C20_exit.
Theorem C20_destructor {W} (ch : chart) (U : user W) s r s' :
  wf_chart ch = true → user_ok ch U → reach ch U s → destroy ch U s = (r, s') →
  ∃ T, tr s' = tr s ++ T ∧ ∀ p c, OExit p c ∉ map ob T.
Proof.
  intros Hwf HU Hs E. destruct (destroyed ch U Hwf HU s r s' Hs E) as (_ & _ & ks & L & Et & _ & El & _).
  eexists. split; [exact Et|]. intros p c. unfold under. rewrite map_map. cbn [ob]. rewrite map_id.
  rewrite elem_of_app. intros [H|H%elem_of_list_singleton]; [|done].
  assert (OExit p c ∈ lifes ks) as H' by by apply elem_of_list_filter.
  rewrite El in H'. apply elem_of_list_fmap in H' as (y & H' & _). done.
Qed.
Print Assumptions C20_destructor.
(** An exit() that throws. *)
Example C20_example :
  ∃ s, reach Demo.chart5 Demo.U s ∧
    drop 8 (map ob (tr s)) = [OVisit 3 4 (ev 8); OTransit 3 4 (IState 5); OExit 3 4; OPost (ev 4); OThrow 7; ODtor 3 4; OCatch 7;
      OHandle 2 (ev 50); OVisit 2 3 (ev 50); OResult 2 3 RForward; OVisit 1 1 (ev 50); OResult 1 1 RForward;
      OVisit 0 0 (ev 50); OReact 0 0 2 (ev 50); OResult 0 0 RDiscard; OUnhandled;
      ODtor 4 2; ODtor 2 3; ODtor 1 1; ODtor 0 0; OReset; ODone].
Proof.
  destruct (played Demo.chart5 Demo.U [Demo.i; Demo.p 8] [(PExit 4, Deed [CPost (ev 4)] (Some 7) DDiscard)]
    (λ s, bool_decide (drop 8 (map ob (tr s)) = [OVisit 3 4 (ev 8); OTransit 3 4 (IState 5); OExit 3 4; OPost (ev 4); OThrow 7; ODtor 3 4; OCatch 7;
      OHandle 2 (ev 50); OVisit 2 3 (ev 50); OResult 2 3 RForward; OVisit 1 1 (ev 50); OResult 1 1 RForward;
      OVisit 0 0 (ev 50); OReact 0 0 2 (ev 50); OResult 0 0 RDiscard; OUnhandled;
      ODtor 4 2; ODtor 2 3; ODtor 1 1; ODtor 0 0; OReset; ODone]))) as (s & Hs & H); [by_eval|].
  exists s. split; [exact Hs|]. by apply bool_decide_eq_true in H.
Qed.

(** ** C32: destroying the machine *)
Theorem C32_destroy {W} (ch : chart) (U : user W) s r s' :
  wf_chart ch = true → user_ok ch U → reach ch U s → destroy ch U s = (r, s') →
  r = Ret tt ∧ (∀ x, ¬ active s' x) ∧
  ∃ ks L, tr s' = tr s ++ under None (ks ++ [OReset]) ∧ Forall (λ k, quiet k = true) ks ∧
    lifes ks = map (λ y, ODtor y.2 y.1) L ∧
    StronglySorted (λ y z, exit_before ch y.1 z.1) L ∧ ∀ y, y ∈ L ↔ active s y.
Proof. intros Hwf HU. exact (destroyed ch U Hwf HU s r s'). Qed.
Print Assumptions C32_destroy.
Example C32_example :
  reach Demo.chart5 Demo.U Demo.demo ∧
  drop 116 (map ob (tr (destroy Demo.chart5 Demo.U Demo.demo).2)) =
    [ODtor 11 2; ORelease; ODtor 16 4; ODtor 15 3; ODtor 14 1; ODtor 7 0; OReset].
Proof. split; [exact Demo.demo_reach|]. by_compute. Qed.
