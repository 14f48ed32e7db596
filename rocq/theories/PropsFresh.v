(** C28: a machine that was terminated is like a new one.
    [alike n t s0 s] (Shift.v): the machines [s0] and [s] have the same states, events, history and user data, and what
    happened on [s] is [t] followed by what happened on [s0], the addresses of the state objects being moved by [n].
    [run ch U l s] (Api.v) makes the calls [l] one after the other; [allowed_all ch U l s] (Shift.v): none of them is
    one of the calls C31 is about. *)
From Verif Require Import Demo Recall PropsQueue Shift.

Section fresh.
Context {W : Type} (ch : chart) (U : user W) (Hwf : wf_chart ch = true) (HU : user_ok ch U).

Lemma fresh_runs n t s0 s : twins ch n t s0 s → ∀ l, (allowed_all ch U l s0 ↔ allowed_all ch U l s) ∧
  (allowed_all ch U l s → (run ch U l s).1 = (run ch U l s0).1 ∧ alike n t (run ch U l s0).2 (run ch U l s).2 ∧
     ∀ r0 z0 r z, destroy ch U (run ch U l s0).2 = (r0, z0) → destroy ch U (run ch U l s).2 = (r, z) → r = r0 ∧ alike n t z0 z).
Proof.
  intros Ht l. pose proof (twins_all ch U Hwf HU n t l _ _ Ht) as Hl. split; [done|]. intros Ha. apply Hl in Ha.
  destruct (twins_runs ch U Hwf HU n t l _ _ Ht Ha) as [H1 H2]. split_and!; [done|by eapply twins_alike|].
  intros r0 z0 r z E0 E. by eapply (twins_destroy ch U Hwf HU).
Qed.
End fresh.

(** After terminate(), if no exception is thrown: any further calls, and destruction in the end, give the same results
    and make the same calls to user code as on a new machine with the same user data. *)
Theorem C28_terminate {W} (ch : chart) (U : user W) s s' T :
  wf_chart ch = true → user_ok ch U → reach ch U s → call ch U OpTerminate s = (Ret tt, s') → tr s' = tr s ++ T →
  (∀ y, OThrow y ∉ map ob T) →
  ∃ n, ∀ l, (allowed_all ch U l (fresh (world (en s'))) ↔ allowed_all ch U l s') ∧
    (allowed_all ch U l s' →
       (run ch U l s').1 = (run ch U l (fresh (world (en s')))).1 ∧
       alike n (tr s') (run ch U l (fresh (world (en s')))).2 (run ch U l s').2 ∧
       ∀ r0 z0 r z, destroy ch U (run ch U l (fresh (world (en s')))).2 = (r0, z0) → destroy ch U (run ch U l s').2 = (r, z) →
         r = r0 ∧ alike n (tr s') z0 z).
Proof.
  intros Hwf HU Hr Hc E Hn. destruct (terminate_cleared ch U Hwf HU _ _ _ Hr Hc E Hn) as (H1 & _ & H2 & H3 & H4 & H5).
  destruct (twins_fresh ch U Hwf HU s') as [n Hn']; try done.
  { apply seen_reach. eapply reach_ret; [exact Hr| | |exact Hc]; done. }
  exists n. by apply fresh_runs.
Qed.
Print Assumptions C28_terminate.

(** The same after a call that threw an exception, unless unconsumed_event() threw it or an event could not be
    deferred. *)
Theorem C28_escape {W} (ch : chart) (U : user W) s o y s' T :
  wf_chart ch = true → user_ok ch U → reach ch U s → op_ok ch o = true → op_allowed ch U o s → call ch U o s = (Exn y, s') →
  tr s' = tr s ++ T →
  (∃ T0 e kc, T = T0 ++ under (Some e) (OUnconsumed e :: kc ++ [OThrow y]) ++ under None [ODone] ∧ calls kc) ∨
  (∃ T0 e, T = T0 ++ under None [ODone; ORefused (ADefer e); OThrow y]) ∨
  ∃ n, ∀ l, (allowed_all ch U l (fresh (world (en s'))) ↔ allowed_all ch U l s') ∧
    (allowed_all ch U l s' →
       (run ch U l s').1 = (run ch U l (fresh (world (en s')))).1 ∧
       alike n (tr s') (run ch U l (fresh (world (en s')))).2 (run ch U l s').2 ∧
       ∀ r0 z0 r z, destroy ch U (run ch U l (fresh (world (en s')))).2 = (r0, z0) → destroy ch U (run ch U l s').2 = (r, z) →
         r = r0 ∧ alike n (tr s') z0 z).
Proof.
  intros Hwf HU Hr Ho Ha Hc E.
  destruct (escape_cleared ch U Hwf HU _ _ _ _ _ Hr Ho Ha Hc E) as [?|[?|(H1 & _ & H2 & H3 & H4 & H5)]]; [by left|by right; left|right; right].
  destruct (twins_fresh ch U Hwf HU s') as [n Hn']; try done.
  { apply seen_reach. by eapply reach_exn. }
  exists n. by apply fresh_runs.
Qed.
Print Assumptions C28_escape.

(** initiate() on a machine that may be running, if its terminate() throws no exception: apart from what terminate()
    does, initiate() and all further calls are as on a new machine with the user data terminate() leaves. *)
Theorem C28_initiate {W} (ch : chart) (U : user W) s s1 T k r s' r0 s0' :
  wf_chart ch = true → user_ok ch U → reach ch U s → call ch U OpTerminate s = (Ret tt, s1) → tr s1 = tr s ++ T →
  (∀ y, OThrow y ∉ map ob T) →
  call ch U (OpInitiate k) s = (r, s') → call ch U (OpInitiate k) (fresh (world (en s1))) = (r0, s0') →
  r = r0 ∧
  ∃ n t, tr s1 = t ++ [Obs None OReset] ∧
    ∀ l, (allowed_all ch U l s0' ↔ allowed_all ch U l s') ∧
    (allowed_all ch U l s' →
       (run ch U l s').1 = (run ch U l s0').1 ∧ alike n t (run ch U l s0').2 (run ch U l s').2 ∧
       ∀ z1 z0 z2 z, destroy ch U (run ch U l s0').2 = (z1, z0) → destroy ch U (run ch U l s').2 = (z2, z) →
         z2 = z1 ∧ alike n t z0 z).
Proof.
  intros Hwf HU Hr Hc E Hn E1 E0. destruct (terminate_cleared ch U Hwf HU _ _ _ Hr Hc E Hn) as (H1 & _ & H2 & H3 & H4 & H5).
  destruct (terminate_call ch U Hwf HU _ _ _ _ Hr Hc E) as (ks & k1 & rest & Hsp & _ & [(_ & _ & _ & ET)|(y & ->)]).
  2:{ exfalso. destruct Hsp as (_ & _ & b' & T' & ->). apply (Hn y). rewrite map_app, elem_of_app. right. by left. }
  assert (tr s1 = (tr s ++ under None ks) ++ [Obs None OReset]) as Et by by rewrite E, ET, under_app_, app_assoc.
  destruct (twins_initiate ch U Hwf HU s s1 _ k r s' r0 s0' Hr Hc Et H1 H2 H3 H4 H5 E1 E0) as [-> [n Ht]].
  split; [done|]. exists n, (tr s ++ under None ks). split; [done|]. by apply fresh_runs.
Qed.
Print Assumptions C28_initiate.
(** [allowed_all] can be computed. *)
Lemma played_allowed {W} (ch : chart) (U : user W) l s : bool_decide (is_Some (play ch U l s)) = true → allowed_all ch U l s.
Proof.
  intros H. apply bool_decide_eq_true in H. revert s H. induction l as [|o l IH]; intros s [z H]; [done|]. simpl in *.
  destruct (op_ok ch o) eqn:Ho; [|done]. destruct (allowedb ch U o s) eqn:Ha; [|done]. simpl in H.
  split; [done|]. split; [by apply allowedb_ok|]. intros r s' E Hr. rewrite E in H.
  destruct Hr as [->|[y ->]]; apply IH; eauto.
Qed.
(** A machine with deferred events and recorded history is terminated and initiated again. *)
Definition again : list op := [Demo.i; Demo.p 8].
Example C28_example : reach Demo.chart5 Demo.U Demo.demo ∧ deferred (en Demo.demo) = [ev 3; ev 7] ∧
  ∃ s' T, call Demo.chart5 Demo.U OpTerminate Demo.demo = (Ret tt, s') ∧ tr s' = tr Demo.demo ++ T ∧ (∀ y, OThrow y ∉ map ob T) ∧
    allowed_all Demo.chart5 Demo.U again s' ∧ (run Demo.chart5 Demo.U again s').1 = [Ret tt; Ret tt] ∧
    map ob (drop (length (tr s')) (tr (run Demo.chart5 Demo.U again s').2)) =
      [OReset; OCtor 17 0; OCtor 18 1; OCtor 19 3; OCtor 20 4; OCtor 21 2; OProcess (ev 8); ODispatch (ev 8) [4; 2];
       OVisit 20 4 (ev 8); OTransit 20 4 (IState 5); OExit 20 4; ODtor 20 4; OCtor 22 5; OResult 20 4 RDiscard; ODone] ∧
    map ob (tr (run Demo.chart5 Demo.U again (fresh (world (en s')))).2) =
      [OReset; OCtor 0 0; OCtor 1 1; OCtor 2 3; OCtor 3 4; OCtor 4 2; OProcess (ev 8); ODispatch (ev 8) [4; 2];
       OVisit 3 4 (ev 8); OTransit 3 4 (IState 5); OExit 3 4; ODtor 3 4; OCtor 5 5; OResult 3 4 RDiscard; ODone].
Proof.
  split; [apply Demo.demo_reach|]. split; [by_compute|].
  destruct (called_quiet Demo.chart5 Demo.U OpTerminate Demo.demo) as (s' & T & E & ET & Hn); [by_eval|].
  assert (s' = (call Demo.chart5 Demo.U OpTerminate Demo.demo).2) as Es by by rewrite E.
  exists s', T. split; [done|]. split; [done|]. split; [done|]. rewrite Es.
  split; [apply played_allowed; by_eval|]. split; [by vm_compute|]. split; by_compute.
Qed.
(** An action that throws after the outermost state is left: isInnermostCommonOuter_ stays true. *)
Example C28_escape_example : ∃ s s', reach Demo.chart5 Demo.U s ∧ op_ok Demo.chart5 (Demo.p 0) = true ∧
  op_allowed Demo.chart5 Demo.U (Demo.p 0) s ∧ call Demo.chart5 Demo.U (Demo.p 0) s = (Exn 5, s') ∧ ico (en s') = true ∧
  allowed_all Demo.chart5 Demo.U again s' ∧ leaves (run Demo.chart5 Demo.U again s').2 = [2; 5].
Proof.
  destruct (played Demo.chart5 Demo.U [Demo.i] [(PAct 0, Deed [] (Some 5) DDiscard)] (λ s,
    match call Demo.chart5 Demo.U (Demo.p 0) s with
    | (Exn y, s') => bool_decide (y = 5) && ico (en s') && bool_decide (is_Some (play Demo.chart5 Demo.U again s')) &&
        bool_decide (leaves (run Demo.chart5 Demo.U again s').2 = [2; 5])
    | _ => false end)) as (s & Hs & H); [by_eval|].
  destruct (call Demo.chart5 Demo.U (Demo.p 0) s) as [[[]|y|f|] s'] eqn:E; try done.
  rewrite !andb_true_iff in H. destruct H as [[[H1 H2] H3] H4]. apply bool_decide_eq_true in H1 as ->. apply bool_decide_eq_true in H4.
  exists s, s'. split_and!; try done. by apply played_allowed.
Qed.
