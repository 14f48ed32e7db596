(** C48: a deferred event waits for the state that deferred it. *)
From Verif Require Import Demo Recall.

(** The deferred events are those deferred since the last release, or the last time the machine was cleared. *)
Lemma waiting_since t : ∃ t0 T, t = t0 ++ T ∧ undisturbed T ∧ waiting t = deferrals T.
Proof.
  induction t as [|[b k] t (t0 & T & -> & HT & IH)] using rev_ind; [by exists [], []; repeat constructor|].
  unfold waiting in *. rewrite queues_snoc. cbn [ob].
  assert (k = ORelease ∨ k = OReset ∨ (k ≠ ORelease ∧ k ≠ OReset)) as [->|[->|Hk]].
  { destruct k; auto; right; right; done. }
  - exists ((t0 ++ T) ++ [Obs b ORelease]), []. rewrite app_nil_r. split_and!; done || constructor.
  - exists ((t0 ++ T) ++ [Obs b OReset]), []. rewrite app_nil_r. split_and!; done || constructor.
  - exists t0, (T ++ [Obs b k]). split_and!; [by rewrite app_assoc|apply Forall_app; split; [done|by constructor]|].
    unfold deferrals in *. rewrite omap_ob_app, <-IH. destruct k; cbn; try (by rewrite app_nil_r); try done; by destruct Hk.
Qed.

(** ** C48: a deferred event waits for the state that deferred it *)
(** The deferred events are those deferred since some moment; whatever state object deferred one of them is
    still active. *)
Theorem C48_waits {W} (ch : chart) (U : user W) s :
  wf_chart ch = true → user_ok ch U → seen ch U s →
  ∃ t T, tr s = t ++ T ∧ undisturbed T ∧ deferred (en s) = deferrals T ∧
    ∀ T1 b e T2, T = T1 ++ Obs b (ODefer e) :: T2 →
      ∃ t0 b' p c, t ++ T1 = t0 ++ [Obs b' (OResult p c RDefer); Obs None ODone] ∧ active s (c, p).
Proof.
  intros Hwf HU Hs. destruct (waiting_since (tr s)) as (t & T & E & HT & Hw). exists t, T.
  destruct (seen_queues ch U Hwf HU _ Hs) as [_ Hd]. split_and!; [done|done|congruence|].
  intros T1 b e T2 ->. destruct (kept_seen ch U Hwf HU s Hs) as [[Hp _] _].
  rewrite app_assoc in E. specialize (Hp _ _ _ E). simpl in Hp. destruct Hp as (t0 & ls & T0 & E1 & _ & T3 & b' & p & c & ->).
  exists (t0 ++ Obs (Some e) (ODispatch e ls) :: T3), b', p, c. split; [by rewrite E1, <-app_assoc; simpl; rewrite <-app_assoc|].
  destruct (seen_truthful ch U Hwf HU _ Hs) as [Htr Hrel].
  assert (tr s = (t0 ++ Obs (Some e) (ODispatch e ls) :: T3) ++ Obs b' (OResult p c RDefer) :: Obs None ODone :: Obs b (ODefer e) :: T2) as E2.
  { rewrite E, E1. by repeat (rewrite <-!app_assoc; simpl). }
  pose proof (Htr _ _ _ _ E2) as [H1 H2]. simpl in H1, H2.
  apply (seen_active ch U Hwf HU s _ Hs). split; simpl.
  - rewrite E2, map_app. apply elem_of_app. by left.
  - rewrite E2, map_app, elem_of_app. intros [H3|H3]; [done|]. simpl in H3.
    do 3 (apply elem_of_cons in H3 as [[=]|H3]).
    apply elem_of_list_fmap in H3 as ([b2 k2] & Hk & H3). simpl in Hk. subst k2. apply elem_of_list_split in H3 as (T4 & T5 & ->).
    edestruct (Hrel (t ++ T1 ++ Obs b (ODefer e) :: T4) b2 p c T5) as (u & b3 & t3 & -> & _).
    + rewrite E. by repeat (rewrite <-!app_assoc; simpl).
    + unfold postponed. simpl. rewrite app_assoc, E1, !map_app. apply elem_of_app. left. apply elem_of_app. right.
      rewrite !map_cons, !map_app. right. apply elem_of_app. left. apply elem_of_app. right. by left.
    + unfold undisturbed in HT. repeat (rewrite ?Forall_app, ?Forall_cons in HT). naive_solver.
Qed.
Print Assumptions C48_waits.

(** So there is none if no state is active. *)
Theorem C48_none {W} (ch : chart) (U : user W) s :
  wf_chart ch = true → user_ok ch U → seen ch U s → terminated s = true → deferred (en s) = [].
Proof.
  intros Hwf HU Hs Ht. destruct (C48_waits ch U s Hwf HU Hs) as (t & T & _ & _ & -> & H).
  destruct (deferrals T) as [|e l] eqn:E; [done|]. exfalso.
  assert (e ∈ deferrals T) as He by (rewrite E; by left).
  unfold deferrals, omap_ob in He. apply elem_of_list_omap in He as ([b k] & Hk & He). simpl in He. destruct k; try done.
  apply elem_of_list_split in Hk as (T1 & T2 & ->).
  destruct (H _ _ _ _ eq_refl) as (t0 & b' & p & c & _ & Ha). by eapply (terminated_iff ch U Hwf HU) in Ht.
Qed.
Print Assumptions C48_none.
(** State 2, at address 11, deferred two events. *)
Example C48_example : seen Demo.chart5 Demo.U Demo.demo ∧ deferred (en Demo.demo) = [ev 3; ev 7] ∧
  omap (λ o, match ob o with OResult p c RDefer => Some (p, c) | _ => None end) (tr Demo.demo) = [(11, 2); (11, 2)] ∧
  active Demo.demo (2, 11).
Proof.
  split; [apply seen_reach, Demo.demo_reach|]. split_and!; [by_compute..|]. eexists. split; vm_compute; reflexivity.
Qed.
(** Nothing is deferred any more once it is terminated. *)
Example C48_none_example : ∃ s, reach Demo.chart5 Demo.U s ∧ terminated s = true ∧
  deferrals (tr s) = [ev 3; ev 7] ∧ deferred (en s) = [].
Proof.
  destruct (played Demo.chart5 Demo.U (Demo.calls1 ++ [OpTerminate]) Demo.script1
    (λ s, terminated s && bool_decide (deferrals (tr s) = [ev 3; ev 7]) && bool_decide (deferred (en s) = []))) as (s & Hs & H); [by_eval|].
  apply andb_true_iff in H as [[H1 H2]%andb_true_iff H3]. apply bool_decide_eq_true in H2, H3. by exists s.
Qed.
