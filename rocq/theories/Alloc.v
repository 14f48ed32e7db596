(** Allocators that throw. *)
From Verif Require Export Recall.

Section alloc.
Context {W : Type} (ch : chart) (U : user W).
Context (Hwf : wf_chart ch = true) (HU : user_ok ch U).

(** ** Recording history *)
(** A state that is not recorded, or only in part: the object is destructed next. *)
Lemma record_refused0 s t1 b c x t2 : seen ch U s → tr s = t1 ++ Obs b (ORefused (ARecord c x)) :: t2 →
  element ch c x ∧ ∃ t0 b0 p u y b' t3, t1 = t0 ++ Obs b0 (OExit p c) :: u ∧ Forall (λ o, user_call (ob o) = true) u ∧
    t2 = Obs b (OThrow y) :: Obs b' (ODtor p c) :: t3.
Proof.
  intros Hs E. destruct (everya_seen ch U Hwf HU s Hs t1 (Obs b (ORefused (ARecord c x))) t2 E) as (_ & _ & H).
  destruct (H c x eq_refl) as (Hel & t0 & p & u & Et & Hu). cbn [ob ob_trig app] in Et. subst t1. split; [done|].
  destruct (seen_exits ch U Hwf HU s Hs t0 b p c (u ++ Obs b (ORefused (ARecord c x)) :: t2)) as (u' & th & b' & t3 & E' & Hu' & Hth).
  { by rewrite E, <-app_assoc. }
  assert (u = u' ∧ ∃ b1 y, b = b1 ∧ th = [Obs b1 (ORefused (ARecord c x)); Obs b1 (OThrow y)] ∧
    t2 = Obs b1 (OThrow y) :: Obs b' (ODtor p c) :: t3) as (<- & b1 & y & <- & -> & ->).
  { clear E H. revert u' E' Hu'. induction u as [|o u IH]; intros [|o' u'] E' Hu'; simpl in E'.
    - split; [done|]. destruct Hth as [->|[(b1 & y & ->)|(b1 & z & y & ->)]]; simpl in E'; injection E'; try done.
      intros -> -> ->. by exists b1, y.
    - injection E' as <- _. by apply Forall_cons in Hu' as [].
    - exfalso. apply Forall_cons in Hu as [[Hu1 Hu2] _].
      destruct Hth as [->|[(b1 & y & ->)|(b1 & z & y & ->)]]; simpl in E'; injection E' as -> _; done.
    - injection E' as <- E'. apply Forall_cons in Hu as [_ Hu]. apply Forall_cons in Hu' as [_ Hu'].
      destruct (IH Hu u' E' Hu') as [-> H]. done. }
  by exists t0, b, p, u, y, b', t3.
Qed.
Lemma record_refused s t1 b c x t2 : seen ch U s → tr s = t1 ++ Obs b (ORefused (ARecord c x)) :: t2 →
  element ch c x ∧ ∃ t0 b0 p u y b' t3, t1 = t0 ++ Obs b0 (OExit p c) :: u ∧ Forall (λ o, user_call (ob o) = true) u ∧
    t2 = Obs b (OThrow y) :: Obs b' (ODtor p c) :: t3 ∧
    ∀ r h, let t' := t1 ++ [Obs b (ORefused (ARecord c x)); Obs b (OThrow y); Obs b' (ODtor p c)] in
      (shallow_memory ch t' r h ↔ in_shallow ch c x r ∧ h = c ∨ ¬ in_shallow ch c x r ∧ shallow_memory ch t1 r h) ∧
      (deep_memory ch t' r h ↔ in_deep ch c x r ∧ h = c ∨ ¬ in_deep ch c x r ∧ deep_memory ch t1 r h).
Proof.
  intros Hs E. destruct (record_refused0 s t1 b c x t2 Hs E) as (Hel & t0 & b0 & p & u & y & b' & t3 & Et & Hu & ->).
  split; [done|]. exists t0, b0, p, u, y, b', t3. split_and!; try done. intros r h t'.
  set (t2 := t1 ++ [Obs b (ORefused (ARecord c x))]).
  assert (t' = t2 ++ [Obs b (OThrow y); Obs b' (ODtor p c)]) as -> by (unfold t', t2; by rewrite <-app_assoc).
  assert (∀ T1 o T2, [Obs b (OThrow y); Obs b' (ODtor p c)] = T1 ++ o :: T2 →
    (∀ h' x', ¬ noted (t2 ++ T1 ++ [o]) h' x') ∧ ob o ≠ OReset ∧ (∀ q i, ob o ≠ OClearS q i) ∧ ∀ q i, ob o ≠ OClearD q i) as Hgo.
  { intros T1 o T2 E2. destruct T1 as [|o1 [|o2 [|o3 T1]]]; simpl in E2; injection E2; intros; subst; try done;
      (split; [|done]); intros h' [z|] Hl; rewrite app_assoc in Hl; try (destruct Hl as (t4 & b4 & E4); by apply app_inj_tail in E4 as [_ ?]);
      apply left_snoc in Hl as (t4 & b4 & p4 & u4 & Ek & E4 & H4); try done.
    injection Ek as -> ->.
    destruct u4 as [|o4 u4 _] using rev_ind; [by apply app_inj_tail in E4 as [_ ?]|].
    rewrite app_comm_cons, app_assoc in E4. apply app_inj_tail in E4 as [_ <-]. apply Forall_app in H4 as [_ H4].
    by apply Forall_cons in H4 as []. }
  assert (∀ h' x', noted t2 h' x' ↔ h' = c ∧ x' = x ∧ x ≠ None) as Hn.
  { intros h' [z|]; simpl; split.
    - intros (t4 & b4 & E4). apply app_inj_tail in E4 as [_ [= _ <- ->]]. done.
    - intros (-> & <- & _). by exists t1, b.
    - intros Hl. by apply left_snoc in Hl as (? & ? & ? & ? & ? & _).
    - by intros (_ & <- & ?). }
  assert (∀ h', records_shallow ch r t2 h' ↔ in_shallow ch c x r ∧ h' = c) as Hrs.
  { intros h'. unfold records_shallow, in_shallow. split.
    - intros ((x' & (-> & -> & Hx)%Hn) & <- & q & Hq & Hd). split_and!; try done. by exists q.
    - intros [(Hx & -> & q & Hq & Hd) ->]. split_and!; [exists x; by apply Hn|done|]. exists q. by split. }
  assert (∀ h', records_deep ch r t2 h' ↔ in_deep ch c x r ∧ h' = c) as Hrd.
  { intros h'. unfold records_deep, in_deep. split.
    - intros ((x' & (-> & -> & Hx)%Hn & y' & Hy1 & Hy2 & Hy3) & Hlf & q & Hq & Hd). split; [|done].
      destruct x as [z|]; [|done]. exists z, y', q. split_and!; try done; [by apply Hy3|by rewrite <-Hy2 in Hq].
    - intros [(z & y' & q & -> & Hy1 & Hy2 & -> & Hq & Hd) ->]. split_and!.
      + exists (Some z). split; [by apply Hn|]. exists y'. split_and!; try done. by intros z' [= <-].
      + apply Hel.
      + exists q. by split. }
  assert (¬ erases_shallow r t2 ∧ ¬ erases_deep r t2) as [Hes Hed].
  { split; intros (t4 & b4 & k4 & E4 & H4); apply app_inj_tail in E4 as [_ [= <- <-]]; destruct H4 as [?|(? & ? & ?)]; done. }
  split; (etrans; [apply latest_same|etrans; [apply latest_snoc|]]).
  1, 3: intros T1 o T2 E2; destruct (Hgo _ _ _ E2) as (G1 & G2 & G3 & G4); split;
    [intros (t4 & b4 & k4 & E4 & H4); rewrite app_assoc in E4; apply app_inj_tail in E4 as [_ ->]; naive_solver|].
  - intros h' [[x' Hl] _]. by eapply G1.
  - intros h' [(x' & Hl & _) _]. by eapply G1.
  - fold t2. rewrite Hrs. split; [intros [?|(H1 & _ & H2)]; [by left|right]|intros [?|[H1 H2]]; [by left|right]].
    + split; [|done]. intros H3. by apply (H2 c), Hrs.
    + split_and!; [done..|]. intros h' [H3 _]%Hrs. done.
  - fold t2. rewrite Hrd. split; [intros [?|(H1 & _ & H2)]; [by left|right]|intros [?|[H1 H2]]; [by left|right]].
    + split; [|done]. intros H3. by apply (H2 c), Hrd.
    + split_and!; [done..|]. intros h' [H3 _]%Hrd. done.
Qed.

(** ** Clearing history *)
Lemma noted_destroyed s t1 o T1 T2 b k t2 h x : seen ch U s → is_throw k = false → (∀ p c, k ≠ ODtor p c) →
  tr s = t1 ++ (T1 ++ o :: T2) ++ Obs b k :: t2 → noted (t1 ++ T1 ++ [o]) h x → ∃ p, ODtor p h ∈ map ob (T1 ++ o :: T2).
Proof.
  intros Hs Hk Hk' E Hn. destruct x as [z|]; simpl in Hn; rewrite app_assoc in Hn.
  - destruct Hn as (t0 & b0 & E0). apply app_inj_tail in E0 as [<- ->].
    rewrite <-app_assoc, app_assoc in E. simpl in E.
    destruct (record_refused0 s _ _ _ _ _ Hs E) as (_ & t3 & b3 & p & u & y & b' & t4 & _ & _ & E4).
    destruct T2 as [|o1 [|o2 T2]]; simpl in E4; injection E4; intros; subst; try done.
    + by destruct (Hk' p h).
    + exists p. rewrite map_app, elem_of_app. right. simpl. right. right. by left.
  - destruct Hn as (t0 & b0 & p & u & b' & E0 & _). rewrite app_comm_cons, app_assoc in E0. apply app_inj_tail in E0 as [_ ->].
    exists p. rewrite map_app, elem_of_app. right. by left.
Qed.
Lemma clear_default_shallow s t1 b q i T b' c h t2 : seen ch U s →
  tr s = t1 ++ Obs b (OClearS q i) :: T ++ Obs b' (OHistS c h) :: t2 → region ch c = (Some q, i) →
  (∀ p z, ODtor p z ∈ map ob T → region ch z ≠ (Some q, i)) → h = c.
Proof.
  intros Hs E Hr HT. pose proof E as E'. rewrite app_comm_cons, app_assoc in E. destruct (seen_truthful ch U Hwf HU _ Hs) as [Ht _].
  destruct (Ht _ _ _ _ E) as [H|[-> _]]; [exfalso|done]. rewrite Hr in H. revert H. apply clear_forgets_shallow.
  intros T1 o T2 h' x -> Hh Hl. rewrite cons_middle, app_assoc in Hl, E'.
  destruct (noted_destroyed s (t1 ++ [Obs b (OClearS q i)]) o T1 T2 b' (OHistS c h) t2 h' x Hs eq_refl) as (p & Hp); [done|done|done|]. by apply (HT p h').
Qed.
Lemma clear_default_deep s t1 b q i T b' c l t2 : seen ch U s →
  tr s = t1 ++ Obs b (OClearD q i) :: T ++ Obs b' (OHistD c l) :: t2 → region ch c = (Some q, i) →
  (∀ p z y, ODtor p z ∈ map ob T → within ch y z → region ch y ≠ (Some q, i)) → l = c.
Proof.
  intros Hs E Hr HT. pose proof E as E'. rewrite app_comm_cons, app_assoc in E. destruct (seen_truthful ch U Hwf HU _ Hs) as [Ht _].
  destruct (Ht _ _ _ _ E) as [H|[-> _]]; [exfalso|done]. rewrite Hr in H. revert H. apply clear_forgets_deep.
  intros T1 o T2 h' x c' -> Hh Hw Hl. rewrite cons_middle, app_assoc in Hl, E'.
  destruct (noted_destroyed s (t1 ++ [Obs b (OClearD q i)]) o T1 T2 b' (OHistD c l) t2 h' x Hs eq_refl) as (p & Hp); [done|done|done|]. by apply (HT p h' c').
Qed.

(** ** Deferring *)
(** A refusal to defer is the last thing that happens. *)
Definition no_deferral (k : okind) : bool := match k with ORefused (ADefer _) => false | _ => true end.
Definition last_wish (T : list obs) (o : ending_of) : Prop :=
  ∀ T1 b e T2, T = T1 ++ Obs b (ORefused (ADefer e)) :: T2 → ∃ y, b = None ∧ T2 = [Obs None (OThrow y)] ∧ o = Raised y.
Lemma wish_none T o : Forall (λ o, no_deferral (ob o) = true) T → last_wish T o.
Proof. intros H T1 b e T2 ->. apply Forall_app in H as [_ H]. by apply Forall_cons in H as []. Qed.
Lemma wish_pre T T' o : Forall (λ o, no_deferral (ob o) = true) T → last_wish T' o → last_wish (T ++ T') o.
Proof.
  intros H1 H2 T1 b e T2 E. apply app_eq_inv in E as [(k & E0 & E)|(k & E0 & E)]; [|by eapply H2].
  destruct k as [|o1 k]; simpl in E; [by apply (H2 [] b e)|]. injection E as <- _. subst T.
  apply Forall_app in H1 as [_ H1]. by apply Forall_cons in H1 as [].
Qed.
Lemma one_event_wish t e T o : one_event ch U t e T o → Forall (λ o, no_deferral (ob o) = true) T.
Proof.
  intros H. destruct (one_event_run ch U _ _ _ _ H) as (ls & T1 & b & k & -> & HT & Hk & _).
  constructor; [done|]. apply Forall_app. split.
  - eapply Forall_impl; [exact HT|]. intros [b' []] [H1 _]; try done; by destruct a.
  - constructor; [|by repeat constructor]. destruct k; try done; by destruct a.
Qed.
Lemma defers_wish e o : Forall (λ o, no_deferral (ob o) = true) (under None (defers e o)).
Proof. destruct o as [[]|]; by repeat constructor. Qed.
Lemma wish_refused e y : last_wish (under None (refused e y)) (Raised y).
Proof. intros [|? [|? [|? ?]]] b e' T2 [=]; subst. by exists y. Qed.
Lemma wish_loop n t T o : event_loop ch U n t T o → last_wish T o.
Proof.
  induction 1 as [n t|t|n t e T r T' o H1 _ IH|n t e T y H1|n t e T y H1]; try (by apply wish_none; constructor);
    (apply wish_pre; [by repeat constructor|]).
  - apply wish_pre; [by eapply one_event_wish|]. apply wish_pre; [apply defers_wish|done].
  - apply wish_none. by eapply one_event_wish.
  - apply wish_pre; [by eapply one_event_wish|]. apply wish_refused.
Qed.
Lemma wish_story o t T r : story ch U o t T r → last_wish T r.
Proof.
  assert (∀ T, Forall (λ o, outerk (ob o) = true) T → Forall (λ o, no_deferral (ob o) = true) T) as Hw.
  { intros T0 H. eapply Forall_impl; [exact H|]. intros [b []]; try done; by destruct a. }
  destruct o as [n| |n e|e|c k|c k]; cbn [story]; intros H.
  - destruct H as [T y H|T T' y H H'|T T' T'' o H H' H''].
    + apply wish_none, Hw. by eapply terminating_outerk.
    + apply wish_none, Hw, Forall_app. split; [by eapply terminating_outerk|by eapply starting_outerk].
    + apply wish_pre; [by eapply Hw, terminating_outerk|]. apply wish_pre; [by eapply Hw, starting_outerk|]. by eapply wish_loop.
  - apply wish_none, Hw. by eapply terminating_outerk.
  - destruct H as [T' r T'' o' H1 H2|T' y H1|T' y H1]; (apply wish_pre; [by repeat constructor|]).
    + apply wish_pre; [by eapply one_event_wish|]. apply wish_pre; [apply defers_wish|]. by eapply wish_loop.
    + apply wish_none. by eapply one_event_wish.
    + apply wish_pre; [by eapply one_event_wish|]. apply wish_refused.
  - destruct H as [-> _]. apply wish_none; by repeat constructor.
  - destruct H as [-> _]. apply wish_none; by repeat constructor.
  - destruct H as [-> _]. apply wish_none; by repeat constructor.
Qed.
Lemma defer_refused s o r s' T T1 b e T2 : reach ch U s → op_ok ch o = true → op_allowed ch U o s → call ch U o s = (r, s') →
  tr s' = tr s ++ T → T = T1 ++ Obs b (ORefused (ADefer e)) :: T2 →
  b = None ∧ ∃ y, r = Exn y ∧ T2 = [Obs None (OThrow y)] ∧
  (∀ x, active s' x ↔ lives (tr s ++ T1) x) ∧
  queue (en s') = pending (tr s ++ T1) ∧ deferred (en s') = waiting (tr s ++ T1).
Proof.
  intros Hr H1 H2 H3 E ET. assert (seen ch U s') as Hs' by by eapply (call_seen ch U Hwf HU).
  destruct (story_call ch U Hwf HU _ _ _ _ Hr H1 H2 H3) as (T' & o' & He & ET' & Hst).
  rewrite E in ET'. apply app_inv_head in ET' as <-.
  destruct (wish_story _ _ _ _ Hst _ _ _ _ ET) as (y & -> & -> & ->).
  split; [done|]. exists y. assert (r = Exn y) as -> by (destruct r as [|y1| |]; try done; cbn in He; by injection He as ->).
  split; [done|]. split; [done|].
  assert (tr s' = (tr s ++ T1) ++ [Obs None (ORefused (ADefer e)); Obs None (OThrow y)]) as E2 by by rewrite E, ET, <-app_assoc.
  assert (undisturbed [Obs None (ORefused (ADefer e)); Obs None (OThrow y)]) as Hun by by repeat constructor.
  split; [|destruct (seen_truthful ch U Hwf HU _ Hs') as [Htr _]; rewrite E2 in Htr; destruct (truthful_fifo _ _ _ Htr Hun) as [F1 F2];
    destruct (seen_queues ch U Hwf HU _ Hs') as [-> ->]; rewrite E2].
  - intros x. rewrite (seen_active ch U Hwf HU _ _ Hs'), E2. symmetry. apply same_objs_app. by repeat constructor.
  - cbn in F1, F2. rewrite !app_nil_r in *. by split.
Qed.

(** ** Entering states *)
Lemma refusing_in ks rest a : refusing ch ks rest → ORefused a ∈ ks →
  ∃ k0, ks = k0 ++ [ORefused a] ∧ Forall (λ k, quiet k = true) k0 ∧ fits ch (Some a) (lifes k0) rest.
Proof.
  intros (k0 & g & -> & Hq & Hf) Hin. assert (ORefused a ∉ k0) as Hn.
  { intros H. rewrite Forall_forall in Hq. by apply Hq in H. }
  rewrite lifes_refusal in Hf. destruct g as [a'|]; apply elem_of_app in Hin as [Hin|Hin]; try done; [|by apply elem_of_nil in Hin].
  apply elem_of_list_singleton in Hin as [= ->]. by exists k0.
Qed.
Lemma quiet_not_refused ks a : Forall (λ k, quiet k = true) ks → ORefused a ∉ ks.
Proof. intros Hq H. rewrite Forall_forall in Hq. by apply Hq in H. Qed.
(** What the allocator was asked for, after [ks] and with [rest] to come. *)
Definition wanted (a : asite) (ks : list okind) : Prop :=
  match a with
  | AState c => StronglySorted (λ y z, exit_before ch z y) (map fst (built ks) ++ [c])
  | AEntry c => is_leaf ch c = true ∧ ∃ l p, built ks = l ++ [(c, p)]
  | ARecord c x => element ch c x ∧ ∃ l p, removals ks = l ++ [OExit p c]
  | ADefer _ => False
  end.
Lemma fits_wanted a ks rest : fits ch (Some a) (lifes ks) rest →
  StronglySorted (λ y z, exit_before ch z y) (map fst (built (lifes ks ++ rest))) → wanted a ks.
Proof.
  destruct a as [c|c|c x|e]; simpl; [|..|done].
  - intros (p & K0 & ->). rewrite built_app, built_lifes, map_app. simpl. intros H.
    change (c :: map fst (built K0)) with ([c] ++ map fst (built K0)) in H. rewrite app_assoc in H. by eapply StronglySorted_prefix.
  - intros (p & K0 & E & Hl) _. split; [done|]. exists (built K0), p. by rewrite <-built_lifes, E, built_app.
  - intros (p & K0 & E & Hl) _. split; [by apply record_parts_element|]. exists (removals K0), p. by rewrite <-removals_lifes, E, removals_app.
Qed.
Lemma transit_refused s t1 b p c d t2 ks k a : seen ch U s → tr s = t1 ++ Obs b (OTransit p c d) :: t2 →
  spans b t2 ks k → ORefused a ∈ ks →
  ∃ ks0 y cc z, ks = ks0 ++ [ORefused a] ∧ k = Some (OThrow y) ∧
    innermost_common ch cc c (init_cls d) ∧ lives t1 z ∧ parent ch z.1 = cc ∧ within ch z.1 c ∧
    ((∃ c' x, a = ARecord c' x) ∧ built ks0 = [] ∧ (ch_relax ch = None → actions ks0 = []) ∨
     (∀ c' x, a ≠ ARecord c' x) ∧
     ∀ x, lives t1 x → within ch z.1 x.1 → ODtor x.2 x.1 ∈ ks0 ∧ (excepting t1 = false → OExit x.2 x.1 ∈ ks0)) ∧
    wanted a ks0.
Proof.
  intros Hs E Hsp Hin. destruct (transit_at' ch U Hwf HU _ _ _ _ _ _ _ Hs E) as (e & act & ks' & k' & rest & _ & H1 & H2 & H3).
  destruct (spans_unique _ _ _ _ _ _ Hsp H1) as [<- ->].
  destruct H3 as [(_ & _ & Hq)|((y & ->) & HR)]; [by apply (quiet_not_refused _ a) in Hq|].
  destruct (refusing_in _ _ _ HR Hin) as (k0 & -> & Hq & Hf).
  apply (transit_plan_transition ch Hwf) in H2 as (cc & z & _ & Hcc & Hz & Hp & Hi & HT).
  exists k0, y, cc, z. change [ORefused a] with (refusal (Some a)) in HT. rewrite lifes_refusal in HT.
  assert (wanted a k0) as Hwa.
  { eapply fits_wanted; [exact Hf|]. destruct (transition_built ch _ _ _ _ _ _ _ _ _ HT) as (n & kb & _ & Eb & _ & He).
    pose proof (et_sorted ch _ _ _ _ He) as Hso. by rewrite <-Eb in Hso. }
  split_and!; try done.
  assert ((∃ c' x, a = ARecord c' x) ∨ ∀ c' x, a ≠ ARecord c' x) as [(c' & x & ->)|Hna] by (destruct a; eauto; right; congruence).
  { left. split; [eauto|]. destruct Hf as (p' & K0 & Hf & _).
    destruct (transition_phases ch _ _ _ _ _ _ _ _ _ HT K0 (OExit p' c') rest) as [Hb Ha]; [by rewrite Hf, <-app_assoc|].
    rewrite <-built_lifes, <-actions_lifes, Hf, built_app, actions_app. rewrite (Hb (or_introl eq_refl)). split; [done|].
    intros Hre. by rewrite (Ha eq_refl Hre). }
  right. split; [done|].
  assert (Forall (λ k, removal k = false) rest) as Hrest.
  { apply Forall_forall. intros k' Hk'. apply not_true_is_false. intros Hr. apply elem_of_list_split in Hk' as (r1 & r2 & ->).
    destruct (transition_phases ch _ _ _ _ _ _ _ _ _ HT (lifes k0 ++ r1) k' r2) as [Hb _]; [by rewrite <-app_assoc|].
    specialize (Hb (or_introl Hr)). rewrite built_app in Hb. apply app_eq_nil in Hb as [Hb1 Hb2].
    destruct a as [c'|c'|c' x|e']; simpl in Hf; [| |by destruct (Hna c' x)|done].
    - destruct Hf as (p' & K0 & Hf). destruct r1 as [|o1 r1]; injection Hf as Hf1 Hf2; subst; done.
    - destruct Hf as (p' & K0 & Hf & _). rewrite Hf, built_app in Hb1. by apply app_eq_nil in Hb1 as []. }
  { intros x Hx Hw. destruct (transition_removals ch Hwf _ _ _ _ _ _ _ _ _ HT) as (L & E' & HL & _).
    rewrite removals_app, removals_lifes in E'. assert (removals rest = []) as Hr0.
    { unfold removals. clear -Hrest. induction Hrest as [|k' r' H' _ IH]; [done|].
      rewrite filter_cons. case_decide as Hd; [congruence|done]. }
    rewrite Hr0, app_nil_r in E'. assert (x ∈ L) as HxL by by apply HL. split.
    + apply removals_elem; [done|]. rewrite E'. by apply elem_exits_dtor.
    + intros Hxx. apply removals_elem; [done|]. rewrite E', Hxx. simpl. unfold exits.
      apply elem_of_list_In, in_flat_map. exists x. split; [by apply elem_of_list_In|]. by left. }
Qed.
Lemma terminate_refused s t1 b p c t2 ks k a : seen ch U s → tr s = t1 ++ Obs b (OTerminate p c) :: t2 →
  spans b t2 ks k → ORefused a ∈ ks →
  ∃ ks0 y c' x, a = ARecord c' x ∧ ks = ks0 ++ [ORefused a] ∧ k = Some (OThrow y) ∧
    element ch c' x ∧ ∃ l p', removals ks0 = l ++ [OExit p' c'].
Proof.
  intros Hs E Hsp Hin. destruct (terminate_at' ch U Hwf HU _ _ _ _ _ _ Hs E) as (e & ks' & k' & rest & _ & H1 & _ & H3).
  destruct (spans_unique _ _ _ _ _ _ Hsp H1) as [<- ->].
  destruct H3 as [(_ & _ & Hq)|((y & ->) & HR & Hr)]; [by apply (quiet_not_refused _ a) in Hq|].
  destruct (Hr _ Hin) as (c' & x & ->). destruct (refusing_in _ _ _ HR Hin) as (k0 & -> & Hq & p' & K0 & Hf & Hh).
  exists k0, y, c', x. split_and!; try done; [by apply record_parts_element|]. exists (removals K0), p'. by rewrite <-removals_lifes, Hf, removals_app.
Qed.
Lemma initiate_refused n s r s' ks0 b T ks k a : reach ch U s → op_allowed ch U (OpInitiate n) s →
  call ch U (OpInitiate n) s = (r, s') → tr s' = tr s ++ under None ks0 ++ Obs b OReset :: T →
  Forall (λ k, quiet k = true) ks0 → spans None T ks k → ORefused a ∈ ks →
  ∃ k0 y, ks = k0 ++ [ORefused a] ∧ k = Some (OThrow y) ∧ wanted a k0 ∧ ∀ c x, a ≠ ARecord c x.
Proof.
  intros Hs Ha E ET Hq Hsp Hin. destruct (initiate_call ch U Hwf HU n s r s' ks0 b T Hs Ha E ET Hq) as (_ & ks' & k' & rest & H1 & H2 & _ & H4).
  destruct (spans_unique _ _ _ _ _ _ Hsp H1) as [<- <-]. destruct H4 as [[(y & ->) HR]|Hq']; [|by apply (quiet_not_refused _ a) in Hq'].
  destruct (refusing_in _ _ _ HR Hin) as (k0 & -> & Hq0 & Hf). exists k0, y. split; [done|]. split; [done|].
  destruct H2 as (_ & m & cs & _ & Hb). change [ORefused a] with (refusal (Some a)) in Hb. rewrite lifes_refusal in Hb.
  destruct (builds_entering ch Hwf _ _ _ _ _ Hb) as [Hno _ Hso _ _ Hre _ _ Hreg]; [by apply (init_valid ch Hwf)|].
  split; [by eapply fits_wanted|]. intros c x ->. destruct Hf as (p & K0 & Hf & _). rewrite Hf, !removals_app in Hno.
  by destruct (removals K0).
Qed.
End alloc.
