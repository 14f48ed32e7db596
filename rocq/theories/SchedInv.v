(** * Invariants of the scheduler *)
From stdpp Require Import gmap.
From Verif Require Export Sched FifoInv.

Section inv.
Implicit Types (s : fifo req) (c : cont) (S : sched) (h : handle) (r : req).

Lemma sreach_freach wait S : sreach wait S → freach wait (sf S).
Proof. induction 1 as [|t S S' _ IH Hs]; [constructor|]. destruct Hs; simpl in *; by eapply freach_step. Qed.

(** ** What the queue holds for a handle *)
Definition is_for h (i : item req) : Prop :=
  match i with IUser r => handle_of r = Some h | ITerm => False end.
(** create_processor() was called and did not fail. *)
Definition made h (l : list (fev req)) : Prop :=
  (∃ t, FCall t (IUser (RCreate h)) ∈ l) ∧ ∀ t, FFail t (IUser (RCreate h)) ∉ l.

Lemma reqs_of_app h l1 l2 : reqs_of h (l1 ++ l2) = reqs_of h l1 ++ reqs_of h l2.
Proof. apply omap_app. Qed.
Lemma reqs_of_for h r l : handle_of r = Some h → reqs_of h (IUser r :: l) = r :: reqs_of h l.
Proof. intros Hr. unfold reqs_of. simpl. by rewrite decide_True. Qed.
Lemma reqs_of_not h i l : ¬ is_for h i → reqs_of h (i :: l) = reqs_of h l.
Proof. intros Hi. destruct i as [r|]; [|done]. unfold reqs_of. simpl. by rewrite decide_False. Qed.
Lemma reqs_of_elem h r l : handle_of r = Some h → IUser r ∈ l → r ∈ reqs_of h l.
Proof.
  intros Hr Hi. apply elem_of_list_omap. exists (IUser r). split; [done|]. by rewrite decide_True.
Qed.
Lemma is_for_dec h i : is_for h i ∨ ¬ is_for h i.
Proof. destruct i as [r|]; simpl; [destruct (decide (handle_of r = Some h)); auto|auto]. Qed.

(** How a step moves work items. *)
Lemma step_outs t s s' u : step t s s' → ftr s' = ftr s → outstanding (fpc s' u) = outstanding (fpc s u).
Proof.
  intros Hs E. destruct Hs; simpl in *;
    try (by apply (f_equal length) in E; rewrite app_length in E; simpl in E; lia); unfold set_pc; case_decide;
    subst; try done; repeat match goal with H : fpc s _ = _ |- _ => rewrite H; clear H end; try done.
  rewrite notify_pc. case_decide; [subst|done]. by destruct (fpc s 0).
Qed.
Lemma step_outs_event t s s' e u : step t s s' → ftr s' = ftr s ++ [e] →
  match e with
  | FCall v i => outstanding (fpc s v) = [] ∧ outstanding (fpc s' u) = if decide (u = v) then [i] else outstanding (fpc s u)
  | FPush v i | FFail v i => outstanding (fpc s v) = [i] ∧ outstanding (fpc s' u) = if decide (u = v) then [] else outstanding (fpc s u)
  | _ => outstanding (fpc s' u) = outstanding (fpc s u)
  end.
Proof.
  intros Hs E. destruct Hs; simpl in *; rewrite ?notify_tr, ?app_nil_r in E;
    try (by apply (f_equal length) in E; rewrite app_length in E; simpl in E; lia);
    apply app_inj_tail in E as [_ <-]; unfold set_pc; repeat case_decide; subst; try done;
    repeat match goal with H : fpc s _ = _ |- _ => rewrite ?H; clear H end; try done.
Qed.

Definition K h s : Prop :=
  (¬ made h (ftr s) ∧ (∀ t i, i ∈ outstanding (fpc s t) → ¬ is_for h i) ∧ reqs_of h (pushed (ftr s)) = []) ∨
  (made h (ftr s) ∧ reqs_of h (pushed (ftr s)) = [] ∧
   ∃ t0, outstanding (fpc s t0) = [IUser (RCreate h)] ∧
     ∀ t i, t ≠ t0 → i ∈ outstanding (fpc s t) → ¬ is_for h i) ∨
  (made h (ftr s) ∧ (∃ L, reqs_of h (pushed (ftr s)) = RCreate h :: L ∧ RCreate h ∉ L) ∧
   ∀ t, outstanding (fpc s t) ≠ [IUser (RCreate h)]).

Lemma made_snoc h l e : (∀ t, e ≠ FCall t (IUser (RCreate h))) → (∀ t, e ≠ FFail t (IUser (RCreate h))) →
  made h (l ++ [e]) ↔ made h l.
Proof.
  intros H1 H2. unfold made. setoid_rewrite elem_of_app. setoid_rewrite elem_of_list_singleton. split.
  - intros [[t [?|?]] Hf]; [|by destruct (H1 t)]. split; [eauto|]. intros u Hu. apply (Hf u). by left.
  - intros [[t ?] Hf]. split; [eauto|]. intros u [Hu|Hu]; [by apply (Hf u)|by destruct (H2 u)].
Qed.
Lemma made_failed h l t : ¬ made h (l ++ [FFail t (IUser (RCreate h))]).
Proof. intros [_ Hf]. apply (Hf t). apply elem_of_app. right. by left. Qed.
Lemma made_call wait s h t : freach wait s → (∀ t, FCall t (IUser (RCreate h)) ∉ ftr s) →
  made h (ftr s ++ [FCall t (IUser (RCreate h))]).
Proof.
  intros Hr Hn. split; [exists t; apply elem_of_app; right; by left|].
  intros u [Hu|Hu%elem_of_list_singleton]%elem_of_app; [|done]. apply (Hn u). by apply (fail_called _ _ Hr).
Qed.

Lemma K_same h s s' : K h s → (made h (ftr s') ↔ made h (ftr s)) → pushed (ftr s') = pushed (ftr s) →
  (∀ u, outstanding (fpc s' u) = outstanding (fpc s u)) → K h s'.
Proof.
  intros HK Hm Hp Ho. unfold K. rewrite Hp.
  destruct HK as [(H1 & H2 & H3)|[(H1 & H2 & t0 & H3 & H4)|(H1 & H2 & H3)]].
  - left. split; [tauto|]. split; [|done]. intros t i. rewrite Ho. eauto.
  - right; left. split; [tauto|]. split; [done|]. exists t0. rewrite Ho. split; [done|]. intros t i. rewrite Ho. eauto.
  - right; right. split; [tauto|]. split; [done|]. intros t. by rewrite Ho.
Qed.

Lemma K_step wait h t S S' : h ≠ 0 → sreach wait S → K h (sf S) → sstep t S S' → K h (sf S').
Proof.
  intros Hh Hr%sreach_freach HK Hs. destruct Hs as [s s' c Hs E _|s s' c c' e Hs E Hl _ Heff]; simpl in *.
  { eapply K_same; [done|by rewrite E|by rewrite E|]. intros u. by eapply step_outs. }
  assert (∀ u, _) as Ho by (intros u; exact (step_outs_event t s s' e u Hs E)). clear Hs.
  assert ((∀ v i, e ≠ FCall v i) → (∀ v i, e ≠ FPush v i) → (∀ v i, e ≠ FFail v i) → K h s') as Hother.
  { intros H1 H2 H3. eapply K_same; [done| | |].
    - rewrite E. apply made_snoc; intros ?; [apply H1|apply H3].
    - rewrite E, pushed_app. destruct e; simpl; try by rewrite app_nil_r. by destruct (H2 t0 i).
    - intros u. specialize (Ho u). destruct e; try done; exfalso; [by eapply H1|by eapply H2|by eapply H3]. }
  destruct e as [v i|v i| | | | | | | | |v i]; try (apply Hother; done); clear Hother; simpl in *.
  - (* a request is made *)
    assert (outstanding (fpc s v) = []) as Hv by apply (Ho 0).
    assert (∀ u, outstanding (fpc s' u) = if decide (u = v) then [i] else outstanding (fpc s u)) as Ho' by apply Ho.
    clear Ho. assert (pushed (ftr s') = pushed (ftr s)) as Hp by (rewrite E, pushed_app; apply app_nil_r).
    unfold K. rewrite Hp.
    destruct (decide (i = IUser (RCreate h))) as [->|Hi]; simpl in Hl.
    + destruct Hl as [_ Hl]. assert (¬ made h (ftr s)) as Hm by (intros [[u Hu] _]; by eapply Hl).
      assert (made h (ftr s')) as Hm' by (rewrite E; by eapply made_call).
      destruct HK as [(H1 & H2 & H3)|[(H1 & _)|(H1 & _)]]; [|done..].
      right; left. split; [done|]. split; [done|]. exists v. rewrite Ho', decide_True by done. split; [done|].
      intros u j Hu. rewrite Ho', decide_False by done. eauto.
    + assert (made h (ftr s') ↔ made h (ftr s)) as Hm.
      { rewrite E. apply made_snoc; congruence. }
      assert (¬ is_for h i ∨ IUser (RCreate h) ∈ pushed (ftr s)) as Hi'.
      { destruct (is_for_dec h i) as [Hf|?]; [right|by left]. destruct i as [r|]; [|done]. simpl in Hf.
        destruct r; simpl in *; simplify_eq; try (by destruct Hl). }
      destruct HK as [(H1 & H2 & H3)|[(H1 & H2 & t0 & H3 & H4)|(H1 & H2 & H3)]].
      * left. split; [tauto|]. split; [|done]. intros u j. rewrite Ho'. case_decide; [|eauto].
        intros ->%elem_of_list_singleton. destruct Hi' as [?|Hc]; [done|].
        apply (reqs_of_elem h (RCreate h)) in Hc; [|done]. rewrite H3 in Hc. by apply elem_of_nil in Hc.
      * right; left. split; [tauto|]. split; [done|]. exists t0. 
        assert (t0 ≠ v) by congruence.
        rewrite Ho', decide_False by done. split; [done|]. intros u j Hu. rewrite Ho'. case_decide; [|eauto].
        intros ->%elem_of_list_singleton. destruct Hi' as [?|Hc]; [done|].
        apply (reqs_of_elem h (RCreate h)) in Hc; [|done]. rewrite H2 in Hc. by apply elem_of_nil in Hc.
      * right; right. split; [tauto|]. split; [done|]. intros u. rewrite Ho'. case_decide; [congruence|done].
  - (* a request enters the queue *)
    assert (outstanding (fpc s v) = [i]) as Hv by apply (Ho 0).
    assert (∀ u, outstanding (fpc s' u) = if decide (u = v) then [] else outstanding (fpc s u)) as Ho' by apply Ho.
    clear Ho Hl. assert (pushed (ftr s') = pushed (ftr s) ++ [i]) as Hp by (by rewrite E, pushed_app).
    assert (made h (ftr s') ↔ made h (ftr s)) as Hm.
    { rewrite E. by apply made_snoc. }
    unfold K. rewrite Hp, reqs_of_app.
    destruct HK as [(H1 & H2 & H3)|[(H1 & H2 & t0 & H3 & H4)|(H1 & (L & H2 & HL) & H3)]].
    + left. split; [tauto|]. split.
      * intros u j. rewrite Ho'. case_decide; [by intros ?%elem_of_nil|eauto].
      * rewrite reqs_of_not; [by rewrite H3|]. apply (H2 v). rewrite Hv. by apply elem_of_list_singleton.
    + destruct (decide (v = t0)) as [->|Hne].
      * right; right. split; [tauto|]. assert (i = IUser (RCreate h)) as -> by congruence. split.
        -- exists []. split; [by rewrite H2, reqs_of_for|by apply not_elem_of_nil].
        -- intros u. rewrite Ho'. case_decide; [done|]. intros Hu. eapply (H4 u); [done| |].
           ++ rewrite Hu. by apply elem_of_list_singleton.
           ++ done.
      * right; left. split; [tauto|]. split.
        -- rewrite reqs_of_not; [by rewrite H2|]. eapply (H4 v); [done|]. rewrite Hv. by apply elem_of_list_singleton.
        -- exists t0. rewrite Ho', decide_False by done. split; [done|]. intros u j Hu. rewrite Ho'.
           case_decide; [by intros ?%elem_of_nil|eauto].
    + right; right. split; [tauto|]. split.
      * destruct (is_for_dec h i) as [Hf|Hf].
        -- destruct i as [r|]; [|done]. exists (L ++ [r]). rewrite H2, reqs_of_for by done. split; [done|].
           apply not_elem_of_app. split; [done|]. intros <-%elem_of_list_singleton. by apply (H3 v).
        -- exists L. rewrite H2, reqs_of_not by done. by rewrite app_nil_r.
      * intros u. rewrite Ho'. by case_decide.
  - (* there is no memory for a request *)
    assert (outstanding (fpc s v) = [i]) as Hv by apply (Ho 0).
    assert (∀ u, outstanding (fpc s' u) = if decide (u = v) then [] else outstanding (fpc s u)) as Ho' by apply Ho.
    clear Ho Hl. assert (pushed (ftr s') = pushed (ftr s)) as Hp by (rewrite E, pushed_app; apply app_nil_r).
    assert (∀ u j, j ∈ outstanding (fpc s' u) → u ≠ v ∧ j ∈ outstanding (fpc s u)) as Hsub.
    { intros u j. rewrite Ho'. case_decide; [by intros ?%elem_of_nil|done]. }
    unfold K. rewrite Hp. destruct (decide (i = IUser (RCreate h))) as [->|Hi].
    + left. split; [rewrite E; apply made_failed|].
      destruct HK as [(H1 & H2 & H3)|[(H1 & H2 & t0 & H3 & H4)|(H1 & H2 & H3)]].
      * destruct (H2 v (IUser (RCreate h))); [|done]. rewrite Hv. by left.
      * split; [|done]. intros u j [Hu Hj]%Hsub. apply (H4 u); [|done]. intros ->.
        destruct (decide (v = t0)) as [->|Hne]; [done|]. destruct (H4 v (IUser (RCreate h))); [done| |done]. rewrite Hv. by left.
      * by destruct (H3 v).
    + assert (made h (ftr s') ↔ made h (ftr s)) as Hm by (rewrite E; apply made_snoc; congruence).
      destruct HK as [(H1 & H2 & H3)|[(H1 & H2 & t0 & H3 & H4)|(H1 & H2 & H3)]].
      * left. split; [tauto|]. split; [|done]. intros u j [_ Hj]%Hsub. eauto.
      * right; left. split; [tauto|]. split; [done|]. exists t0. rewrite Ho', decide_False by congruence. split; [done|].
        intros u j Hu [_ Hj]%Hsub. eauto.
      * right; right. split; [tauto|]. split; [done|]. intros u. rewrite Ho'. by case_decide.
Qed.

Lemma K_reach wait S h : h ≠ 0 → sreach wait S → K h (sf S).
Proof.
  intros Hh. induction 1 as [|t S S' Hr IH Hs]; [|by eapply K_step].
  left. simpl. split; [by intros [[t Ht%elem_of_nil] _]|]. split; [|done]. by intros t i Hi%elem_of_nil.
Qed.

(** The requests executed for a handle are none, or its creation followed by other requests. *)
Lemma started_shape wait S h : h ≠ 0 → sreach wait S →
  reqs_of h (started (ftr (sf S))) = [] ∨
  (made h (ftr (sf S)) ∧ ∃ L, reqs_of h (started (ftr (sf S))) = RCreate h :: L ∧ RCreate h ∉ L).
Proof.
  intros Hh Hr. pose proof (K_reach _ _ _ Hh Hr) as HK. pose proof (freach_inv _ _ (sreach_freach _ _ Hr)) as I.
  pose proof (i_fifo _ I) as If. apply (f_equal (reqs_of h)) in If. rewrite reqs_of_app in If.
  destruct HK as [(_ & _ & H3)|[(_ & H3 & _)|(Hm & (L & H2 & HL) & _)]].
  - left. rewrite H3 in If. symmetry in If. by apply app_eq_nil in If as [? _].
  - left. rewrite H3 in If. symmetry in If. by apply app_eq_nil in If as [? _].
  - rewrite H2 in If. destruct (reqs_of h (started (ftr (sf S)))) as [|r R]; [by left|right].
    split; [done|]. simpl in If. injection If as <- ->. exists R. split; [done|].
    intros ?. apply HL. apply elem_of_app. by left.
Qed.

Lemma no_nesting wait S : sreach wait S → length (fstack (sf S)) ≤ 1.
Proof.
  intros Hr. induction Hr as [|t S S' Hr IH Hs]; [simpl; lia|].
  pose proof (i_frames _ (freach_inv _ _ (sreach_freach _ _ Hr))) as Hf.
  assert (sreach wait S') as Hr' by by eapply sreach_step.
  pose proof (i_frames _ (freach_inv _ _ (sreach_freach _ _ Hr'))) as Hf'.
  destruct Hs as [s s' c Hs E _|s s' c c' e Hs E Hl _ Heff]; simpl in *.
  - congruence.
  - rewrite <- Hf', E, frames_app, Hf. 
    destruct e; simpl; try done; try (destruct (fstack s) as [|[] ?]; simpl in *; lia).
    simpl in Hl. by rewrite Hl.
Qed.

(** ** What a processor experiences *)
Definition cur s : option req :=
  match fstack s with Frame _ _ (Some (IUser r)) :: _ => Some r | _ => None end.

(** What the container knows about [h] *)
Record part := Part {
  puse : nat; pproc : bool; pset : bool; pheld : bool; plog : list aev }.
Definition view h c : part :=
  Part (cuse c h) (cproc c h) (bool_decide (h ∈ cset c)) (bool_decide (cheld c = Some h)) (log_of h (clog c)).

Lemma log_of_app h l1 l2 : log_of h (l1 ++ l2) = log_of h l1 ++ log_of h l2.
Proof. apply filter_app. Qed.
Lemma log_of_same h a : handle_of_aev a = h → log_of h [a] = [a].
Proof. intros. unfold log_of. by rewrite filter_cons_True, filter_nil. Qed.
Lemma log_of_other h a : handle_of_aev a ≠ h → log_of h [a] = [].
Proof. intros. unfold log_of. by rewrite filter_cons_False, filter_nil. Qed.

Lemma view_set_use h g n c : g ≠ h → view h (set_use g n c) = view h c.
Proof. intros. unfold view, set_use, set_fn. simpl. by rewrite decide_False. Qed.
Lemma view_say h g c a : handle_of_aev a = g → g ≠ h → view h (say a c) = view h c.
Proof. intros <- ?. unfold view, say. simpl. by rewrite log_of_app, log_of_other, app_nil_r. Qed.
Lemma view_unshare h g c : g ≠ h → view h (unshare g c) = view h c.
Proof.
  intros. unfold unshare. case_decide; [destruct (cproc c g)|]; rewrite ?(view_say h g) by done; by apply view_set_use.
Qed.

(** A request for another processor does not touch it. *)
Lemma frame_start h g r c : handle_of r = Some g → g ≠ h → cheld c ≠ Some h →
  view h (exec_start r c) = view h c.
Proof.
  intros Hr Hg Hh.
  assert (∀ a, handle_of_aev a = g → view h (op_start g a c) = view h c) as Hop.
  { intros a Ha. unfold op_start. case_decide; [done|]. destruct (cproc c g); rewrite (view_say h g) by done; [|done].
    unfold view, set_held, share, set_use, set_fn. simpl. rewrite decide_False by done.
    f_equal. rewrite !bool_decide_eq_false_2; congruence. }
  destruct r; simpl in *; simplify_eq; try by apply Hop.
  - unfold create_start. rewrite (view_say h g) by done. case_decide; [done|].
    unfold view, set_set, share, set_use, set_fn. simpl. rewrite decide_False by done. f_equal.
    apply bool_decide_ext. set_solver.
  - unfold destroy_start. case_decide; [done|]. simpl. case_decide; [rewrite view_unshare by done|].
    + unfold view, set_set, set_held, share, set_use, set_fn. simpl. rewrite decide_False by done. f_equal.
      * apply bool_decide_ext. set_solver.
      * rewrite !bool_decide_eq_false_2; congruence.
    + unfold view, set_held, share, set_use, set_fn. simpl. rewrite decide_False by done. f_equal.
      rewrite !bool_decide_eq_false_2; congruence.
Qed.
Lemma frame_end h r c ok : handle_of r ≠ Some h → cheld c ≠ Some h →
  view h (exec_end ok r c) = view h c.
Proof.
  intros Hr Hh.
  assert (view h (op_end c) = view h c) as Hop.
  { unfold op_end. destruct (cheld c) as [g|] eqn:E; [|done]. assert (g ≠ h) by congruence.
    rewrite view_unshare by done. unfold view, set_held. simpl. f_equal.
    rewrite !bool_decide_eq_false_2; congruence. }
  destruct r; simpl in *; try done.
  unfold create_end. rewrite view_unshare by congruence. destruct ok; [|done].
  unfold view, set_proc, set_fn. simpl. by rewrite decide_False by congruence.
Qed.

Definition settled h (R : list req) (p : part) (cu : option req) : Prop :=
  ∃ L, R = RCreate h :: L ∧ pproc p = true ∧ cu ≠ Some (RCreate h) ∧
    ((RDestroy h ∉ L ∧ pset p = true ∧ puse p = (if pheld p then 2 else 1) ∧ plog p = served h R) ∨
     (RDestroy h ∈ L ∧ pset p = false ∧ puse p = (if pheld p then 1 else 0) ∧
      plog p ++ (if pheld p then [ADestruct h] else []) = served h R)).

(** The constructor threw: there is a holder without processor, until it is destroyed or used. *)
Definition wrecked h (R : list req) (p : part) (cu : option req) : Prop :=
  ∃ L, R = RCreate h :: L ∧ pproc p = false ∧ cu ≠ Some (RCreate h) ∧
    ((L = [] ∧ pset p = true ∧ puse p = 1 ∧ pheld p = false ∧ plog p = [AConstruct h]) ∨
     (∃ L', L = RDestroy h :: L' ∧ pset p = false ∧ puse p = (if pheld p then 1 else 0) ∧ plog p = [AConstruct h]) ∨
     (∃ r, L = [r] ∧ r ≠ RDestroy h ∧ pheld p = false ∧ plog p = [AConstruct h; AFault h]) ∨
     (* the constructor was not even called *)
     (pset p = false ∧ puse p = 0 ∧ pheld p = false ∧ plog p = [])).

Definition J h S : Prop :=
  let s := sf S in let p := view h (scont S) in let R := reqs_of h (started (ftr s)) in
  (pheld p = true → ∃ r, cur s = Some r ∧ handle_of r = Some h ∧ r ≠ RCreate h) ∧
  ((R = [] ∧ pproc p = false ∧ pset p = false ∧ pheld p = false ∧ plog p = [] ∧
    (made h (ftr s) → puse p = 1) ∧ (¬ made h (ftr s) → puse p = 0)) ∨
   (ctor_threw h (ftr s) ∧ wrecked h R p (cur s)) ∨
   (R = [RCreate h] ∧ cur s = Some (RCreate h) ∧
     (p = Part 2 false true false [AConstruct h] ∨ p = Part 1 false false false []) ∧ ¬ ctor_threw h (ftr s)) ∨
   (settled h R p (cur s) ∧ ¬ ctor_threw h (ftr s))).

Lemma step_cur t s s' e : Inv s → length (fstack s) ≤ 1 → step t s s' → ftr s' = ftr s ++ [e] →
  match e with
  | FStart (IUser r) => cur s = None ∧ cur s' = Some r
  | FStart ITerm => cur s = None ∧ cur s' = None
  | FItemRet | FThrow => cur s' = None
  | FRun _ => True
  | FRunRet _ => cur s = None ∧ cur s' = None
  | _ => cur s' = cur s
  end.
Proof.
  intros I Hle Hs E. pose proof (i_stack _ I) as Is. unfold stack_ok in Is.
  destruct Hs; simpl in *; rewrite ?notify_tr, ?app_nil_r in E;
    try (by apply (f_equal length) in E; rewrite app_length in E; simpl in E; lia);
    apply app_inj_tail in E as [_ <-]; try done; unfold cur; simpl;
    repeat match goal with H : fpc s _ = _ |- _ => rewrite H in *; clear H end; simpl in *;
    try (destruct Is as (f' & fs' & Hf & _ & Hi & _));
    repeat match goal with H : fstack s = _ |- _ => rewrite H in *; clear H end; simplify_eq; simpl in *; try done.
  all: repeat match goal with H : fitem ?f = None |- _ => destruct f as [? ? ?]; simpl in H; subst end; try done.
  all: match goal with H : S (length ?l) ≤ 1 |- _ => destruct l; simpl in *; [done|lia] end.
Qed.

Lemma serve_app h L r : RDestroy h ∉ L → (∀ r', r' ∈ L → handle_of r' = Some h) →
  serve h (L ++ [r]) = serve h L ++ serve h [r].
Proof.
  induction L as [|r' L IH]; [done|]. intros [Hd1 Hd2]%not_elem_of_cons Hf.
  assert (handle_of r' = Some h) by (apply Hf; by left).
  assert (serve h (L ++ [r]) = serve h L ++ serve h [r]) as IH' by (apply IH; [done|]; intros; apply Hf; by right).
  destruct r'; simpl in *; simplify_eq; try (by rewrite IH'); done.
Qed.
Lemma serve_app_done h L r : RDestroy h ∈ L → serve h (L ++ [r]) = serve h L.
Proof.
  induction L as [|r' L IH]; [by intros ?%elem_of_nil|]. 
  intros [<-|Hd]%elem_of_cons; [done|]. destruct r'; simpl; rewrite ?IH by done; done.
Qed.
Lemma reqs_of_all h l r : r ∈ reqs_of h l → handle_of r = Some h.
Proof.
  intros (i & Hi & Hr)%elem_of_list_omap. destruct i as [r'|]; [|done]. case_decide; by simplify_eq.
Qed.

(** Requests for the processor itself. *)
Lemma view_unshare_same h c : view h (unshare h c) =
  Part (pred (cuse c h)) (cproc c h) (bool_decide (h ∈ cset c)) (bool_decide (cheld c = Some h))
    (log_of h (clog c) ++ if decide (pred (cuse c h) = 0) then if cproc c h then [ADestruct h] else [] else []).
Proof.
  unfold unshare, view. simpl. unfold set_fn. rewrite (decide_True _ _ (eq_refl h)).
  destruct (decide (pred (cuse c h) = 0)); [destruct (cproc c h) eqn:E|]; simpl; unfold set_fn;
    rewrite (decide_True _ _ (eq_refl h)), ?E, ?app_nil_r; [|done..].
  by rewrite log_of_app, log_of_same.
Qed.
Lemma view_op_start h a c : handle_of_aev a = h → cheld c ≠ Some h → view h (op_start h a c) =
  if decide (cuse c h = 0) then view h c
  else if cproc c h then Part (Datatypes.S (cuse c h)) true (bool_decide (h ∈ cset c)) true (log_of h (clog c) ++ [a])
  else Part (cuse c h) false (bool_decide (h ∈ cset c)) false (log_of h (clog c) ++ [AFault h]).
Proof.
  intros Ha Hh. unfold op_start. case_decide; [done|]. destruct (cproc c h) eqn:E.
  - unfold view, say, set_held, share, set_use, set_fn. simpl. rewrite decide_True by done.
    rewrite log_of_app, log_of_same, E by done. f_equal. by apply bool_decide_eq_true.
  - unfold view, say. simpl. rewrite log_of_app, log_of_same, E by done. f_equal. by apply bool_decide_eq_false.
Qed.
Lemma view_op_end h c : cheld c = Some h → view h (op_end c) =
  Part (pred (cuse c h)) (cproc c h) (bool_decide (h ∈ cset c)) false
    (log_of h (clog c) ++ if decide (pred (cuse c h) = 0) then if cproc c h then [ADestruct h] else [] else []).
Proof. intros Hh. unfold op_end. rewrite Hh. rewrite view_unshare_same. done. Qed.
Lemma op_end_none c : cheld c = None → op_end c = c.
Proof. intros Hh. unfold op_end. by rewrite Hh. Qed.
Lemma view_destroy_start h c : cheld c ≠ Some h → view h (destroy_start h c) =
  if decide (cuse c h = 0) then view h c
  else if decide (h ∈ cset c) then Part (cuse c h) (cproc c h) false true (log_of h (clog c))
  else Part (Datatypes.S (cuse c h)) (cproc c h) false true (log_of h (clog c)).
Proof.
  intros Hh. unfold destroy_start. case_decide; [done|]. simpl. case_decide.
  - rewrite view_unshare_same. unfold set_set, set_held, share, set_use, set_fn. simpl. 
    rewrite (decide_True _ _ (eq_refl h)). simpl. rewrite decide_False by done. rewrite app_nil_r. f_equal.
    + apply bool_decide_eq_false. set_solver.
    + by apply bool_decide_eq_true.
  - unfold view, set_held, share, set_use, set_fn. simpl. rewrite decide_True by done. f_equal.
    + by apply bool_decide_eq_false.
    + by apply bool_decide_eq_true.
Qed.
Lemma view_create_start h c : h ∉ cset c → view h (create_start h c) =
  Part (Datatypes.S (cuse c h)) (cproc c h) true (bool_decide (cheld c = Some h)) (log_of h (clog c) ++ [AConstruct h]).
Proof.
  intros Hh. unfold create_start. rewrite decide_False by done.
  unfold view, say, set_set, share, set_use, set_fn. simpl. rewrite decide_True by done.
  rewrite log_of_app, log_of_same by done. f_equal. apply bool_decide_eq_true. set_solver.
Qed.
Lemma view_create_end h c ok : view h (create_end ok h c) =
  Part (pred (cuse c h)) (ok || cproc c h) (bool_decide (h ∈ cset c)) (bool_decide (cheld c = Some h))
    (log_of h (clog c) ++ if decide (pred (cuse c h) = 0) then if ok || cproc c h then [ADestruct h] else [] else []).
Proof.
  unfold create_end. rewrite view_unshare_same. destruct ok; simpl; [|done].
  unfold set_fn. by rewrite decide_True by done.
Qed.

Lemma view_use h c : cuse c h = puse (view h c).
Proof. done. Qed.
Lemma view_proc h c : cproc c h = pproc (view h c).
Proof. done. Qed.
Lemma view_set h c : bool_decide (h ∈ cset c) = pset (view h c).
Proof. done. Qed.
Lemma view_held h c : bool_decide (cheld c = Some h) = pheld (view h c).
Proof. done. Qed.
Lemma view_log h c : log_of h (clog c) = plog (view h c).
Proof. done. Qed.
Lemma cheld_view h c : pheld (view h c) = false → cheld c ≠ Some h.
Proof. by intros ?%bool_decide_eq_false. Qed.
Lemma cset_view h c : pset (view h c) = false → h ∉ cset c.
Proof. by intros ?%bool_decide_eq_false. Qed.
Lemma cset_view' h c : pset (view h c) = true → h ∈ cset c.
Proof. by intros ?%bool_decide_eq_true. Qed.
Lemma cheld_view' h c : pheld (view h c) = true → cheld c = Some h.
Proof. by intros ?%bool_decide_eq_true. Qed.
Lemma view_op_end_other h c : cheld c ≠ Some h → view h (op_end c) = view h c.
Proof.
  intros Hp. unfold op_end. destruct (cheld c) as [g|] eqn:Eg; [|done].
  assert (g ≠ h) by congruence.
  rewrite view_unshare by done. unfold view, set_held. simpl. f_equal.
  rewrite !bool_decide_eq_false_2; congruence.
Qed.
Local Opaque view.

Lemma threw_app h l1 l2 : ctor_threw h l1 → ctor_threw h (l1 ++ l2).
Proof.
  intros (k1 & k2 & n & k & fs & -> & Hf). exists k1, (k2 ++ l2), n, k, fs. split; [|done]. by rewrite <- app_assoc.
Qed.

Lemma threw_snoc h l e : ctor_threw h (l ++ [e]) →
  ctor_threw h l ∨ (e = FThrow ∧ ∃ n k fs, frames l = Frame n k (Some (IUser (RCreate h))) :: fs).
Proof.
  intros (l1 & l2 & n & k & fs & E & Hf). destruct l2 as [|e' l2 _] using rev_ind.
  - apply app_inj_tail in E as [-> ->]. right. eauto.
  - left. rewrite app_comm_cons, app_assoc in E. apply app_inj_tail in E as [-> _]. by exists l1, l2, n, k, fs.
Qed.

(** What is about [h] stays as it is. *)
Lemma J_same h s c s' c' : J h (Sched s c) → view h c' = view h c →
  (made h (ftr s') ↔ made h (ftr s)) → (ctor_threw h (ftr s') ↔ ctor_threw h (ftr s)) →
  reqs_of h (started (ftr s')) = reqs_of h (started (ftr s)) →
  (cur s' = cur s ∨ (pheld (view h c) = false ∧ cur s ≠ Some (RCreate h) ∧ cur s' ≠ Some (RCreate h))) →
  J h (Sched s' c').
Proof.
  unfold J. simpl. intros [Hh HJ] Hv Hm Ht HR Hc. rewrite Hv, HR.
  assert (wrecked h (reqs_of h (started (ftr s))) (view h c) (cur s) → wrecked h (reqs_of h (started (ftr s))) (view h c) (cur s')) as Hw.
  { intros (L & H1 & H2 & H3 & H4). exists L. split; [done|]. split; [done|].
    split; [|done]. destruct Hc as [->|(_ & _ & Hc)]; done. }
  split.
  { intros Hp. destruct (Hh Hp) as (r & Hr & Hr2). destruct Hc as [->|[Hp' _]]; [eauto|congruence]. }
  destruct HJ as [(H1 & H2 & H3 & H4 & H5 & H6 & H7)|[H|[(H1 & H2 & H3 & HnT)|[(L & H1 & H2 & H3 & H4) HnT]]]].
  - left. do 5 (split; [done|]). tauto.
  - right; left. destruct H as [H H']. split; [tauto|auto].
  - right; right; left. rewrite Ht. destruct Hc as [->|(_ & Hc & _)]; [auto|congruence].
  - right; right; right. rewrite Ht. split; [|done]. exists L. split; [done|]. split; [done|]. split; [|done].
    destruct Hc as [->|(_ & _ & Hc)]; done.
Qed.

Lemma J_start h s c s' r : J h (Sched s c) → handle_of r = Some h → cur s = None → cur s' = Some r →
  reqs_of h (started (ftr s')) = reqs_of h (started (ftr s)) ++ [r] →
  (∃ L, reqs_of h (started (ftr s')) = RCreate h :: L ∧ RCreate h ∉ L) → made h (ftr s) →
  (ctor_threw h (ftr s') ↔ ctor_threw h (ftr s)) → (ctor_threw h (ftr s) → reqs_of h (started (ftr s)) ≠ []) → ¬ faulted c →
  J h (Sched s' (exec_start r c)).
Proof.
  unfold J. simpl. intros [Hh HJ] Hr Hcs Hcs' HR (L & HL & HnL) Hm Ht Hne Hnf.
  assert (pheld (view h c) = false) as Hp.
  { destruct (pheld (view h c)); [|done]. destruct Hh as (? & ? & _); [done|congruence]. }
  assert (cheld c ≠ Some h) as Hhe by by apply cheld_view.
  assert (reqs_of h (started (ftr s)) ≠ [] → r ≠ RCreate h) as Hrc.
  { intros Hne0 ->. rewrite HR in HL. destruct (reqs_of h (started (ftr s))) as [|r0 R]; [done|].
    simpl in HL. injection HL as -> <-. apply HnL. apply elem_of_app. right. by apply elem_of_list_singleton. }
  destruct HJ as [(H1 & H2 & H3 & H4 & H5 & H6 & _)|[H|[(H1 & H2 & H3 & HnT)|[(L' & H1 & H2 & H3 & H4) HnT]]]].
  - (* its creation *)
    rewrite H1 in HR. simpl in HR. rewrite HL in HR. injection HR as <- ->.
    assert (h ∉ cset c) as Hs by (by apply cset_view).
    change (exec_start (RCreate h) c) with (create_start h c).
    assert (view h (create_start h c) = Part 2 false true false [AConstruct h]) as ->.
    { rewrite view_create_start by done.
      rewrite view_use, view_proc, view_held, view_log. by rewrite H2, H4, H5, H6. }
    split; [done|]. right; right; left. split; [by rewrite HL|]. split; [done|]. split; [by left|]. rewrite Ht. intros H. by apply (Hne H).
  - (* after a failed creation *)
    destruct H as [H (L' & H1 & H2 & H3 & H4)]. specialize (Hrc (Hne H)). split; [eauto|].
    right; left. split; [tauto|]. rewrite HR, H1. exists (L' ++ [r]). split; [done|].
    destruct H4 as [(-> & Hs & Hu & _ & Hlog)|[(L1 & -> & Hs & Hu & Hlog)|[(r' & _ & _ & _ & Hlog)|(Hs & Hu & _ & Hlog)]]].
    + assert (cuse c h ≠ 0) as Hu' by (rewrite view_use; lia).
      assert (r = RDestroy h ∨ r ≠ RDestroy h ∧ view h (exec_start r c) = Part 1 false true false [AConstruct h; AFault h])
        as [->|[Hrd ->]].
      { destruct r; simpl in Hr; simplify_eq; try (by left); right; (split; [done|]); cbn [exec_start];
          rewrite view_op_start by done; rewrite decide_False by done;
          rewrite view_use, view_proc, view_set, view_log, H2, Hs, Hu, Hlog; done. }
      * cbn [exec_start].
        assert (view h (destroy_start h c) = Part 1 false false true [AConstruct h]) as ->.
        { rewrite view_destroy_start by done. rewrite decide_False by done.
          rewrite decide_True by (by apply cset_view').
          rewrite view_use, view_proc, view_log, H2, Hu, Hlog. done. }
        simpl. split; [done|]. split; [congruence|]. right; left. by exists [].
      * simpl. split; [done|]. split; [congruence|]. right; right; left. by exists r.
    + assert (view h (exec_start r c) = view h c) as ->.
      { rewrite Hp in Hu. assert (cuse c h = 0) as Hu' by (by rewrite view_use).
        destruct r; simpl in Hr; simplify_eq; try done; cbn [exec_start]; rewrite ?view_op_start, ?view_destroy_start by done;
          by rewrite decide_True. }
      split; [done|]. split; [congruence|]. right; left. by exists (L1 ++ [r]).
    + exfalso. apply Hnf. exists h. rewrite <-view_log in Hlog.
      assert (AFault h ∈ log_of h (clog c)) as Hin by (rewrite Hlog; right; by left).
      by apply elem_of_list_filter in Hin as [_ ?].
    + assert (view h (exec_start r c) = view h c) as ->.
      { assert (cuse c h = 0) as Hu' by (by rewrite view_use).
        destruct r; simpl in Hr; simplify_eq; try done; cbn [exec_start]; rewrite ?view_op_start, ?view_destroy_start by done;
          by rewrite decide_True. }
      split; [done|]. split; [congruence|]. by do 3 right.
  - congruence.
  - assert (r ≠ RCreate h) as Hrc' by (apply Hrc; by rewrite H1).
    split; [eauto|]. right; right; right. rewrite Ht. split; [|done]. rewrite HR, H1. exists (L' ++ [r]). split; [done|].
    assert (∀ r', r' ∈ L' → handle_of r' = Some h) as Hall.
    { intros r' ?. apply (reqs_of_all h (started (ftr s))). rewrite H1. by right. }
    rewrite Hp in H4. rewrite H1 in H4. simpl in H4. rewrite app_nil_r in H4.
    destruct H4 as [(Hd & Hs & Hu1 & Hlog)|(Hd & Hs & Hu1 & Hlog)].
    + assert (cuse c h ≠ 0) as Hu by (rewrite view_use; lia).
      assert (∀ a, handle_of_aev a = h → view h (op_start h a c) = Part 2 true true true (plog (view h c) ++ [a])) as Hop.
      { intros a Ha. rewrite view_op_start by done. rewrite decide_False by done.
        rewrite view_use, view_proc, view_set, view_log, H2, Hs, Hu1. done. }
      destruct r; simpl in Hr; simplify_eq; cbn [exec_start]; rewrite ?Hop by done; simpl.
      1-3: (split; [done|]); (split; [congruence|]); left;
        (split; [apply not_elem_of_app; split; [done|]; by intros ?%elem_of_list_singleton|]);
        (split; [done|]); (split; [done|]); rewrite Hlog, serve_app by done; done.
      assert (view h (destroy_start h c) = Part 1 true false true (plog (view h c))) as ->.
      { rewrite view_destroy_start by done. rewrite decide_False by done.
        rewrite decide_True by (by apply cset_view').
        rewrite view_use, view_proc, view_log, H2, Hu1. done. }
      simpl. split; [done|]. split; [congruence|]. right. split; [apply elem_of_app; right; by apply elem_of_list_singleton|].
      split; [done|]. split; [done|]. rewrite Hlog, serve_app by done. done.
    + assert (view h (exec_start r c) = view h c) as ->.
      { assert (cuse c h = 0) as Hu by (by rewrite view_use).
        destruct r; simpl in Hr; simplify_eq; try done; cbn [exec_start]; rewrite ?view_op_start, ?view_destroy_start by done;
          by rewrite decide_True. }
      split; [done|]. split; [congruence|]. right. split; [apply elem_of_app; by left|]. split; [done|].
      rewrite Hp. split; [done|]. rewrite app_nil_r. simpl. by rewrite serve_app_done.
Qed.

Lemma J_end h s c s' r ok : J h (Sched s c) → cur s = Some r → handle_of r = Some h → cur s' = None →
  reqs_of h (started (ftr s')) = reqs_of h (started (ftr s)) → reqs_of h (started (ftr s)) ≠ [] →
  (ctor_threw h (ftr s') ↔ ctor_threw h (ftr s) ∨ ok = false ∧ r = RCreate h) →
  (ok = true → r = RCreate h → h ∈ cset c) →
  J h (Sched s' (exec_end ok r c)).
Proof.
  unfold J. simpl. intros [Hh HJ] Hc Hr Hc' HR Hne Ht Hin. rewrite HR.
  assert (pheld (view h (exec_end ok r c)) = false) as Hp'.
  { destruct (pheld (view h c)) eqn:Hp.
    - destruct (Hh eq_refl) as (r' & Hr' & _ & Hn). assert (r' = r) as -> by congruence.
      assert (cheld c = Some h) by by apply cheld_view'.
      destruct r; simpl in Hr; simplify_eq; cbn [exec_end]; by rewrite ?view_op_end.
    - assert (cheld c ≠ Some h) by by apply cheld_view.
      assert (pheld (view h (op_end c)) = false) as Hop by (by rewrite view_op_end_other).
      destruct r; simpl in Hr; simplify_eq; cbn [exec_end]; try done.
      by rewrite view_create_end, view_held. }
  rewrite Hp'. split; [done|].
  destruct HJ as [(H1 & H2 & H3 & H4 & H5 & H6 & H7)|[H|[(H1 & H2 & H3 & HnT)|[(L' & H1 & H2 & H3 & H4) HnT]]]].
  - done.
  - right; left. destruct H as [H (L & H1 & H2 & H3 & H4)]. split; [tauto|]. exists L. split; [done|].
    assert (r ≠ RCreate h) as Hrc by congruence.
    assert (view h (exec_end ok r c) = view h (op_end c)) as E.
    { destruct r; simpl in Hr; simplify_eq; done. }
    rewrite E in *. rewrite Hp'.
    destruct (pheld (view h c)) eqn:Hp.
    + assert (cheld c = Some h) as Hhe by by apply cheld_view'.
      destruct H4 as [(_ & _ & _ & ? & _)|[(L1 & -> & Hs & Hu & Hlog)|[(r' & _ & _ & ? & _)|(_ & _ & ? & _)]]]; [done| |done|done].
      assert (view h (op_end c) = Part 0 false false false [AConstruct h]) as ->.
      { rewrite view_op_end by done. rewrite view_use, view_proc, view_set, view_log, H2, Hs, Hu, Hlog. done. }
      simpl. split; [done|]. split; [congruence|]. right; left. by exists L1.
    + assert (view h (op_end c) = view h c) as -> by (apply view_op_end_other; by apply cheld_view).
      split; [done|]. split; [congruence|]. done.
  - assert (r = RCreate h) as -> by congruence. destruct H3 as [H3|H3].
    2:{ destruct ok.
        - assert (pset (view h c) = true) as Hps by (rewrite <-view_set; apply bool_decide_eq_true; by apply Hin).
          by rewrite H3 in Hps.
        - right; left. split; [tauto|]. exists []. split; [done|]. cbn [exec_end].
          assert (view h (create_end false h c) = Part 0 false false false []) as ->.
          { rewrite view_create_end. rewrite view_use, view_proc, view_set, view_held, view_log, H3. done. }
          simpl. split; [done|]. split; [congruence|]. by do 3 right. }
    destruct ok.
    + right; right; right. split; [|rewrite Ht; naive_solver]. exists []. split; [done|]. cbn [exec_end].
      assert (view h (create_end true h c) = Part 1 true true false [AConstruct h]) as ->.
      { rewrite view_create_end.
        rewrite view_use, view_set, view_held, view_log, H3. done. }
      simpl. split; [done|]. split; [congruence|]. left. split; [by apply not_elem_of_nil|]. by rewrite H1.
    + right; left. split; [tauto|]. exists []. split; [done|]. cbn [exec_end].
      assert (view h (create_end false h c) = Part 1 false true false [AConstruct h]) as ->.
      { rewrite view_create_end. rewrite view_use, view_proc, view_set, view_held, view_log, H3. done. }
      simpl. split; [done|]. split; [congruence|]. left. done.
  - right; right; right. assert (r ≠ RCreate h) as Hrc by congruence.
    split; [|tauto]. exists L'. split; [done|].
    assert (view h (exec_end ok r c) = view h (op_end c)) as E.
    { destruct r; simpl in Hr; simplify_eq; done. }
    rewrite E. rewrite E in Hp'. rewrite Hp'.
    destruct (pheld (view h c)) eqn:Hp.
    + assert (cheld c = Some h) as Hhe by by apply cheld_view'.
      assert (view h (op_end c) = Part (pred (puse (view h c))) true (pset (view h c)) false
        (plog (view h c) ++ if decide (pred (puse (view h c)) = 0) then [ADestruct h] else [])) as E'.
      { rewrite view_op_end by done. rewrite view_use, view_proc, view_set, view_log, H2. done. }
      rewrite E'. simpl. split; [done|]. split; [congruence|].
      destruct H4 as [(Hd & Hs & Hu1 & Hlog)|(Hd & Hs & Hu1 & Hlog)].
      * left. rewrite Hu1. simpl. by rewrite app_nil_r.
      * right. rewrite Hu1. simpl. by rewrite app_nil_r.
    + assert (view h (op_end c) = view h c) as E' by (apply view_op_end_other; by apply cheld_view).
      rewrite E'. split; [done|]. split; [congruence|]. done.
Qed.

Lemma frames_started (l : list (fev req)) f i : f ∈ frames l → fitem f = Some i → i ∈ started l.
Proof.
  revert f i. induction l as [|e l IH] using rev_ind; [by intros f i ?%elem_of_nil|].
  intros f i Hf Hi. rewrite started_app. apply elem_of_app. rewrite frames_app in Hf.
  destruct e; simpl in *; try (by left; eapply IH); try (destruct (frames l) as [|[n' k' it'] fs] eqn:E; [by apply elem_of_nil in Hf|]).
  - apply elem_of_cons in Hf as [->|Hf]; [done|]. left; by eapply IH.
  - apply elem_of_cons in Hf as [->|Hf]; [simpl in Hi; simplify_eq; right; by left|]. left; eapply IH; [by right|done].
  - apply elem_of_cons in Hf as [->|Hf]; [done|]. left; eapply IH; [by right|done].
  - left; eapply IH; [by right|done].
  - left; eapply IH; [by right|done].
Qed.
Lemma threw_started h l : ctor_threw h l → reqs_of h (started l) ≠ [].
Proof.
  intros (l1 & l2 & n & k & fs & -> & Hf) Hn.
  assert (RCreate h ∈ reqs_of h (started (l1 ++ FThrow :: l2))) as Hin; [|rewrite Hn in Hin; by apply elem_of_nil in Hin].
  apply reqs_of_elem; [done|]. rewrite started_app. apply elem_of_app. left.
  eapply (frames_started l1 (Frame n k _)); [rewrite Hf; by left|done].
Qed.
Lemma cur_started s r : Inv s → cur s = Some r → IUser r ∈ started (ftr s).
Proof.
  intros I Hc. pose proof (i_frames _ I) as Hf. unfold cur in Hc.
  destruct (fstack s) as [|[n k [[r'|]|]] fs]; simplify_eq.
  eapply (frames_started _ (Frame n k _)); [rewrite Hf; by left|done].
Qed.

Lemma J_step wait h t S S' : h ≠ 0 → sreach wait S → J h S → sstep t S S' → J h S'.
Proof.
  intros Hh Hr HJ Hs. assert (sreach wait S') as Hr' by by eapply sreach_step.
  pose proof (freach_inv _ _ (sreach_freach _ _ Hr)) as I.
  pose proof (freach_inv _ _ (sreach_freach _ _ Hr')) as I'.
  pose proof (no_nesting _ _ Hr) as Hn.
  pose proof (started_shape _ _ _ Hh Hr) as Hsh. pose proof (started_shape _ _ _ Hh Hr') as Hsh'.
  destruct Hs as [s s' c Hs E _|s s' c c' e Hs E Hl Hnf Heff]; simpl in *.
  { assert (cur s' = cur s) as Hc.
    { unfold cur. rewrite <- (i_frames _ I), <- (i_frames _ I'), E. done. }
    apply (J_same h s c); auto; by rewrite ?E. }
  pose proof (threw_snoc h (ftr s) e) as Hts. rewrite <-E, (i_frames _ I) in Hts.
  pose proof (step_cur t s s' e I Hn Hs E) as Hc.
  pose proof (K_reach _ _ _ Hh Hr) as HK. simpl in HK.
  assert ((∀ t, e ≠ FCall t (IUser (RCreate h))) → (∀ t, e ≠ FFail t (IUser (RCreate h))) → made h (ftr s') ↔ made h (ftr s)) as Hm.
  { intros He1 He2. rewrite E. by apply made_snoc. }
  assert (ctor_threw h (ftr s) → ctor_threw h (ftr s')) as Ht0 by (rewrite E; apply threw_app).
  assert (e ≠ FThrow ∨ cur s ≠ Some (RCreate h) → ctor_threw h (ftr s') ↔ ctor_threw h (ftr s)) as Ht.
  { intros He. split; [|done]. intros [?|(-> & n & k & fs & Hf)]%Hts; [done|]. unfold cur in He. rewrite Hf in He. naive_solver. }
  assert ((∀ i, e ≠ FStart i) → started (ftr s') = started (ftr s)) as Hst.
  { intros He. rewrite E, started_app. destruct e; simpl; try by rewrite app_nil_r. by destruct (He i). }
  assert (∀ r, cur s = Some r → handle_of r = Some h → reqs_of h (started (ftr s)) ≠ []) as Hne.
  { intros r Hcr Hrh Hn0. apply (cur_started _ _ I) in Hcr. apply (reqs_of_elem h _ _ Hrh) in Hcr.
    rewrite Hn0 in Hcr. by apply elem_of_nil in Hcr. }
  (* the end of a request *)
  assert (∀ ok : bool, e = (if ok then FItemRet else FThrow) →
    (∀ h n k fs', ok = true → fstack s = Frame n k (Some (IUser (RCreate h))) :: fs' → h ∈ cset c) →
    J h (Sched s' match fstack s with Frame _ _ (Some (IUser r)) :: _ => exec_end ok r c | _ => c end)) as Hend.
  { intros ok -> Hin. assert (cur s' = None) as Hc' by (by destruct ok).
    assert (started (ftr s') = started (ftr s)) as Hst' by (apply Hst; by destruct ok).
    assert (made h (ftr s') ↔ made h (ftr s)) as Hm' by (by apply Hm; destruct ok).
    assert (∀ r, cur s = Some r → J h (Sched s' (exec_end ok r c))) as Hr1.
    { intros r Hcr. destruct (decide (handle_of r = Some h)) as [Hrh|Hrh].
      - eapply J_end; try done; [by rewrite Hst'|by eapply Hne| |].
        2:{ intros Hok ->. unfold cur in Hcr. destruct (fstack s) as [|[n k [[r'|]|]] fs] eqn:Ef; simplify_eq. by eapply Hin. }
        split.
        + intros [?|(He & n & k & fs & Hf)]%Hts; [by left|]. right. unfold cur in Hcr. rewrite Hf in Hcr.
          split; [by destruct ok|congruence].
        + intros [?|[-> ->]]; [auto|]. rewrite E. unfold cur in Hcr. destruct (fstack s) as [|[n k [[r'|]|]] fs] eqn:Ef; simplify_eq.
          exists (ftr s), [], n, k, fs. split; [done|]. by rewrite (i_frames _ I).
      - assert (pheld (view h c) = false) as Hp.
        { destruct HJ as [Hheld _]. simpl in Hheld. destruct (pheld (view h c)); [|done].
          destruct Hheld as (r' & ? & ? & _); [done|]. congruence. }
        eapply (J_same h s c); try done; [|apply Ht; right; rewrite Hcr; intros [= ->]; done|by rewrite Hst'|].
        + apply frame_end; [done|by apply cheld_view].
        + right. split; [done|]. rewrite Hcr, Hc'. split; [|done]. intros [= ->]. done. }
    assert (cur s = None → J h (Sched s' c)) as Hr2.
    { intros Hcn. eapply (J_same h s c); try done; [apply Ht; right; congruence|by rewrite Hst'|]. left. congruence. }
    unfold cur in Hr1, Hr2. destruct (fstack s) as [|[n k [[r'|]|]] fs]; auto. }
  destruct Heff as [Hin|g ->].
  2:{ (* there is no memory for the entry of the set *)
      clear Hend. simpl in Hc. destruct Hc as [Hc Hc'].
      assert (pheld (view h c) = false) as Hp.
      { destruct HJ as [Hheld _]. simpl in Hheld. destruct (pheld (view h c)); [|done].
        destruct Hheld as (r' & ? & ? & _); [done|]. congruence. }
      destruct (decide (g = h)) as [->|Hg].
      - assert (reqs_of h (started (ftr s')) = reqs_of h (started (ftr s)) ++ [RCreate h]) as HR.
        { rewrite E, started_app, reqs_of_app. f_equal. by apply reqs_of_for. }
        assert (made h (ftr s') ↔ made h (ftr s)) as Hm' by by apply Hm.
        destruct Hsh' as [Hsh'|(Hmade & L & HL & HnL)]; [rewrite HR in Hsh'; by destruct (reqs_of h (started (ftr s)))|].
        assert (reqs_of h (started (ftr s)) = []) as HR0.
        { destruct (reqs_of h (started (ftr s))) as [|r0 R0]; [done|]. rewrite HR in HL. simpl in HL. injection HL as _ <-.
          destruct HnL. apply elem_of_app. right. by left. }
        destruct HJ as [Hheld HJ]. simpl in Hheld, HJ.
        destruct HJ as [(_ & H2 & H3 & H4 & H5 & H6 & H7)|[(_ & L0 & H & _)|[(H1 & _)|[(L0 & H1 & _) _]]]]; [|congruence..].
        assert (¬ ctor_threw h (ftr s)) as Hnt by (intros H; by apply (threw_started _ _ H)).
        split; simpl; [congruence|]. right; right; left. rewrite HR, HR0. split; [done|]. split; [done|].
        split; [right|rewrite Ht by (by left); done].
        assert (puse (view h c) = 1) as Hu by tauto. destruct (view h c) as [pu pp ps ph pl]; simpl in *. by subst.
      - assert (reqs_of h (started (ftr s')) = reqs_of h (started (ftr s))) as HR.
        { rewrite E, started_app, reqs_of_app. cbn [started]. rewrite reqs_of_not by (simpl; congruence). by rewrite app_nil_r. }
        eapply (J_same h s c); [done|done|by apply Hm|by apply Ht; left|done|].
        right. split; [done|]. split; congruence. }
  assert (∀ ok : bool, e = (if ok then FItemRet else FThrow) →
    J h (Sched s' match fstack s with Frame _ _ (Some (IUser r)) :: _ => exec_end ok r c | _ => c end)) as Hend'.
  { intros ok He. apply Hend; [done|]. intros h' n k fs' ->. by apply Hin. }
  clear Hend Hin.
  destruct e as [v i|v i|v|v|n|i| | |k|b|v i]; simpl in *; try (apply (Hend' true); done); try (apply (Hend' false); done);
    clear Hend'.
  all: try (eapply (J_same h s c); [done|done|by apply Hm|by apply Ht; left|by rewrite Hst|by left]).
  - (* a request is made *)
    destruct i as [r|]; [|eapply (J_same h s c); [done|done|by apply Hm|by apply Ht; left|by rewrite Hst|by left]].
    destruct r as [g|g|g|g e|g|n]; try (eapply (J_same h s c); [done|done|by apply Hm|by apply Ht; left|by rewrite Hst|by left]).
    destruct (decide (g = h)) as [->|Hg].
    + destruct Hl as [_ Hl]. assert (¬ made h (ftr s)) as Hnm by (intros [[u Hu] _]; by eapply Hl).
      destruct Hsh as [Hsh|[? _]]; [|done]. destruct HJ as [Hheld HJ]. split; simpl.
      { rewrite Hc. intros Hp. apply Hheld. simpl. rewrite <- Hp. rewrite <- !view_held. done. }
      destruct HJ as [(H1 & H2 & H3 & H4 & H5 & H6 & H7)|[(_ & L & H & _)|[(H1 & _)|[(L & H1 & _) _]]]]; simpl in *; [|congruence..].
      * left. rewrite Hst by done. split; [done|]. 
        assert (view h (create_call h c) = Part 1 (pproc (view h c)) (pset (view h c)) (pheld (view h c)) (plog (view h c))) as ->.
        { unfold create_call, set_use, set_fn. rewrite <- view_proc, <- view_set, <- view_held, <- view_log.
          Local Transparent view. unfold view. simpl. rewrite decide_True by done. done. Local Opaque view. }
        simpl. do 4 (split; [done|]). split; [done|]. intros []. rewrite E. eapply made_call; [by apply (sreach_freach _ _ Hr)|done].
    + eapply (J_same h s c); [done| |apply Hm|by apply Ht; left|by rewrite Hst|by left].
      * unfold create_call. by apply view_set_use.
      * congruence.
      * done.
  - (* operator() is called *)
    eapply (J_same h s c); [done|done|by apply Hm|by apply Ht; left|by rewrite Hst|].
    left. unfold cur. rewrite <- (i_frames _ I'), E, frames_app, (i_frames _ I), Hl. done.
  - (* a request starts *)
    destruct i as [r|]; destruct Hc as [Hc Hc'].
    + assert (pheld (view h c) = false) as Hp.
      { destruct HJ as [Hheld _]. simpl in Hheld. destruct (pheld (view h c)); [|done].
        destruct Hheld as (r' & ? & ? & _); [done|]. congruence. }
      destruct (decide (handle_of r = Some h)) as [Hrh|Hrh].
      * assert (reqs_of h (started (ftr s')) = reqs_of h (started (ftr s)) ++ [r]) as HR.
        { rewrite E, started_app, reqs_of_app. f_equal. by apply reqs_of_for. }
        assert (made h (ftr s') ↔ made h (ftr s)) as Hm' by by apply Hm.
        destruct Hsh' as [Hsh'|[Hmade Hsh']]; [rewrite HR in Hsh'; by destruct (reqs_of h (started (ftr s)))|].
        eapply J_start; try done; [tauto|by apply Ht; left|]. apply threw_started.
      * assert (reqs_of h (started (ftr s')) = reqs_of h (started (ftr s))) as HR.
        { rewrite E, started_app, reqs_of_app. cbn [started]. rewrite reqs_of_not by done. by rewrite app_nil_r. }
        eapply (J_same h s c); [done| |by apply Hm|by apply Ht; left|done|].
        -- destruct (handle_of r) as [g|] eqn:Eg.
           ++ eapply frame_start; [done|congruence|by apply cheld_view].
           ++ by destruct r.
        -- right. split; [done|]. split; [congruence|]. rewrite Hc'. intros [= ->]. done.
    + eapply (J_same h s c); [done|done|by apply Hm|by apply Ht; left| |left; congruence].
      rewrite E, started_app, reqs_of_app. simpl. by rewrite app_nil_r.
  - destruct Hc as [Hc Hc']. eapply (J_same h s c); [done|done|by apply Hm|by apply Ht; left|by rewrite Hst|left; congruence].
  - (* there is no memory for a request *)
    destruct i as [r|]; [|eapply (J_same h s c); [done|done|by apply Hm|by apply Ht; left|by rewrite Hst|by left]].
    destruct r as [g|g|g|g e|g|n]; try (eapply (J_same h s c); [done|done|by apply Hm|by apply Ht; left|by rewrite Hst|by left]).
    destruct (decide (g = h)) as [->|Hg].
    + destruct (step_outs_event t s s' _ 0 Hs E) as [Hv _].
      assert (made h (ftr s) ∧ reqs_of h (pushed (ftr s)) = []) as [Hmade Hnone].
      { destruct HK as [(H1 & H2 & H3)|[(H1 & H2 & _)|(H1 & H2 & H3)]]; [|done|by destruct (H3 v)].
        destruct (H2 v (IUser (RCreate h))); [|done]. rewrite Hv. by left. }
      assert (reqs_of h (started (ftr s)) = []) as HR.
      { pose proof (i_fifo _ I) as If. apply (f_equal (reqs_of h)) in If. rewrite reqs_of_app, Hnone in If.
        symmetry in If. by apply app_eq_nil in If as [? _]. }
      destruct HJ as [Hheld HJ]. simpl in Hheld, HJ.
      destruct HJ as [(H1 & H2 & H3 & H4 & H5 & H6 & H7)|[(_ & L & H & _)|[(H1 & _)|[(L & H1 & _) _]]]]; [|congruence..].
      assert (view h (unshare h c) = Part 0 false false false []) as Ev.
      { rewrite view_unshare_same, view_use, view_proc, view_set, view_held, view_log, H2, H3, H4, H5, H6 by done. done. }
      split; simpl; rewrite Ev; [done|]. left. rewrite Hst by done. do 5 (split; [done|]). split; [|done].
      intros Hm'. exfalso. revert Hm'. rewrite E. apply made_failed.
    + eapply (J_same h s c); [done| |apply Hm|by apply Ht; left|by rewrite Hst|by left].
      * by apply view_unshare.
      * done.
      * congruence.
Qed.

Lemma J_reach wait S h : h ≠ 0 → sreach wait S → J h S.
Proof.
  intros Hh. induction 1 as [|t S S' Hr IH Hs]; [|by eapply J_step].
  split; [done|]. left. do 5 (split; [done|]). split; [|done]. by intros [[t Ht%elem_of_nil] _].
Qed.
End inv.
