(** Simulation: reactions, event processing and the operations of the machine. *)
From Verif Require Export CommonContext RefineExit Api.

Section refine.
Context {W : Type} (ch : chart) (U : user W) (Hwf : wf_chart ch = true).
Notation alive := (alive ch).
Notation R := (R ch).
Notation wfa := (wfa ch).
Notation S := (mst W heapst).
Notation T := (mst W acore).
Notation RA H a := (RP (λ h, R H h a) a).
Notation RR := (RR ch).

Lemma sim_env_RR {A B} H f (k : unit → M S A) (k' : unit → M T B) Q E :
  sim (RR H) (k tt) (k' tt) Q E → sim (RR H) (bind (on_env f) k) (bind (on_env f) k') Q E.
Proof.
  intros Hs. apply sim_fix. intros a. apply sim_on_env. by apply sim_RA_RR.
Qed.
Lemma sim_env_RR' H (f : env W → env W) E : sim (RR H) (on_env f) (on_env f) (λ _ _, RR H) E.
Proof. apply sim_fix. intros a. apply sim_on_env'. intros s t. apply RA_RR. Qed.
Lemma sim_get_env {A B X} H (f : env W → X) (k : X → M S A) (k' : X → M T B) Q E :
  (∀ v, sim (RR H) (k v) (k' v) Q E) →
  sim (RR H) (bind (gets (λ s, f (en s))) k) (bind (gets (λ s, f (en s))) k') Q E.
Proof.
  intros Hs s t Hst. pose proof Hst as [_ He]. specialize (Hs (f (en t)) s t Hst).
  unfold bind, gets. by rewrite He.
Qed.
Lemma sim_ucall_x_RR H f :
  sim (RR H) (ucall_x (W:=W) ch heap_leaves f) (ucall_x ch abs_leaves f) (λ _ _, RR H) (RR H).
Proof.
  apply sim_fix. intros a. eapply sim_weaken; [apply sim_ucall_x, RA_leaves|done| |].
  - intros ? ? s t Hst. eapply RA_RR. exact Hst.
  - intros s t Hst. by eapply RA_RR.
Qed.
Lemma sim_look_RR {A B} H a x (k : unit → M S A) (m' : M T B) Q E : alive_opt ch a x →
  sim (RA H a) (k tt) m' Q E → sim (RA H a) (bind (look_around ch (fst <$> x) (snd <$> x)) k) m' Q E.
Proof.
  intros Hx. apply (sim_look ch Hwf). intros h HR. apply R_readable in HR. split; [done|]. by apply anchored_opt.
Qed.
Lemma sim_nodiv {A B} (P : S → T → Prop) (m : M S A) (m' : M T B) :
  nodiv m' → ∀ s t, P s t → match m' t with (Div, _) => False | _ => True end.
Proof. intros Hd s t _. specialize (Hd t). by destruct (m' t) as [[]]. Qed.
Lemma sim_unst_l {A B} H a (k : option ptr → M S A) (m : M T B) Q E :
  sim (RA H a) (k (snd <$> aunst a)) m Q E →
  sim (RA H a) (bind (gets (λ s, unst (core s))) k) m Q E.
Proof.
  intros Hs s t Hst. pose proof Hst as (HR & _ & _). specialize (Hs s t Hst).
  rewrite (bind_eq (gets (λ s, unst (core s))) k s (snd <$> aunst a) s); [exact Hs|].
  unfold gets. by rewrite (R_unst _ _ _ _ HR).
Qed.
Lemma sim_alive_l {A B} H a x (k : obj → M S A) (m : M T B) Q E :
  alive a x →
  (∀ o, o_cls o = x.1 → o_ctx o = Some (snd <$> ctx_of ch a x.1) → sim (RA H a) (k o) m Q E) →
  sim (RA H a) (bind (deref x.2) k) m Q E.
Proof.
  intros Hx Hk. eapply (sim_crun _ _ _ _ _ _ _ _ (crun_deref ch x H a Hx)). intros o.
  apply (sim_pure_l _ _ (o_cls o = x.1 ∧ o_ctx o = Some (snd <$> ctx_of ch a x.1))).
  { intros s t ((HR & Ho) & _). destruct (R_lookup _ _ _ _ _ HR Hx) as (o' & Ho' & E1 & E2 & E3 & _).
    assert (o' = o) as -> by congruence. done. }
  intros [? ?]. eapply sim_pre; [|by apply Hk]. by intros ? ? ((? & _) & ?).
Qed.

Lemma sim_terminate_state H x fe :
  sim (RR H) (terminate_state ch U x.2 fe) (a_terminate_state ch U H x fe) (λ _ _, RR H) (RR H).
Proof.
  unfold terminate_state, a_terminate_state. apply sim_env_RR. apply sim_fix. intros a.
  apply sim_core_r. apply sim_gets_l. intros h.
  apply (sim_pure_l _ _ (R H h a)). { intros s t ((HR & _) & ->). done. } intros HR.
  apply (sim_pre _ (RA H a)); [by intros ? ? [? _]|].
  rewrite (R_unst _ _ _ _ HR), (R_send _ _ _ _ HR).
  destruct (aunst a) as [u|]; simpl.
  - apply sim_RA_RR. by apply sim_remove.
  - pose proof (R_len _ _ _ _ HR) as Hlen.
    destruct (ord a) as [|y [|z l]] eqn:Eo; simpl in *.
    + apply sim_faulty.
    + by apply sim_remove_single.
    + rewrite bool_decide_true by lia. apply sim_unit_l. apply sim_RA_RR. by apply sim_remove.
Qed.

Lemma sim_terminate_machine fe :
  sim (RR []) (terminate_machine ch U fe) (a_terminate_machine ch U fe) (λ _ _, RR []) (RR []).
Proof.
  unfold terminate_machine, a_terminate_machine. apply sim_env_RR. apply sim_fix. intros a.
  apply sim_core_r. apply sim_gets_l. intros p.
  apply (sim_pure_l _ _ (p = snd <$> occ a !! (None, 0))).
  { intros s t ((HR & _) & ->). apply (R_top _ _ _ _ HR). }
  intros ->. apply (sim_pre _ (RA [] a)); [by intros ? ? [? _]|].
  eapply (sim_bind _ _ _ _ _ (λ _ _, RR [])).
  - destruct (occ a !! (None, 0)) as [x|]; simpl.
    + apply sim_RA_RR, sim_terminate_state.
    + apply sim_ret. intros ? ? ?. by eapply RA_RR.
  - intros ? ?. apply sim_env_RR'.
Qed.

Lemma terminated_eq H (s : S) (t : T) : RR H s t → terminated s = a_terminated t.
Proof.
  intros [HR _]. unfold terminated, a_terminated. rewrite (R_top _ _ _ _ HR).
  apply bool_decide_ext. destruct (occ (core t) !! (None, 0)); simpl; naive_solver.
Qed.

Lemma sim_assign_RR H new :
  sim (RR H) (assign_unst (W:=W) (snd <$> new)) (a_set_unst (W:=W) ch H new) (λ _ _, RR H) (RR H).
Proof.
  apply sim_fix. intros a.
  intros s t Hst. pose proof (sim_assign_unst ch H a new (λ _, ret tt) (λ _, ret tt)
    (λ _ _, RR H) (RR H) ltac:(intros ?; apply sim_ret; intros ? ? ?; by eapply RA_RR) s t Hst) as Hs.
  unfold bind in Hs. destruct (a_set_unst ch H new t) as [[[]|y|g|] t']; try done.
  - destruct Hs as (v & s' & Heq & HR). destruct (assign_unst (snd <$> new) s) as [[[]|y|g|] s'']; try done.
    injection Heq as <- <-. eauto.
  - destruct Hs as (s' & Heq & HR). destruct (assign_unst (snd <$> new) s) as [[[]|z|g|] s'']; try done.
    simplify_eq. eauto.
  - destruct Hs as (s' & Heq & HR). destruct (assign_unst (snd <$> new) s) as [[[]|z|g|] s'']; try done.
    simplify_eq. eauto.
Qed.

Lemma sim_terminate_as_reaction x :
  sim (RR []) (terminate_as_reaction ch U x.2) (a_terminate_as_reaction ch U x) (λ _ _, RR []) (RR []).
Proof.
  unfold terminate_as_reaction, a_terminate_as_reaction. apply sim_get_env. intros f.
  eapply sim_bind; [apply sim_terminate_state|]. intros ? ?. apply (sim_assign_RR [] None).
Qed.

Lemma sim_outward H n x :
  sim (RR H) (outward (W:=W) n x.2) (a_outward (W:=W) ch n x)
    (λ p y s t, p = y.2 ∧ termination_state ch x.1 n = Some y.1 ∧ RR H s t) bot.
Proof.
  revert x. induction n as [|n IH]; intros x; simpl; [by apply sim_ret|].
  apply sim_fix. intros a. apply sim_core_r, sim_assert_r. intros Hx.
  apply sim_alive_l; [done|]. intros o _ ->.
  apply (sim_pure_l _ _ (wfa H a)); [intros s' t' (HR & _); apply (R_wf _ _ _ _ HR)|]. intros Hw.
  destruct (ctx_of ch a x.1) as [q|] eqn:Hc; simpl; [|apply sim_faulty]. apply sim_RA_RR.
  eapply sim_weaken; [apply IH|done| |done]. intros p y s t (? & Hy & ?). split_and!; [done| |done].
  destruct x as [c p']. destruct (ctx_of_alive _ _ _ _ _ _ Hw Hx Hc) as [_ Hp]. simpl in *.
  unfold termination_state in *. simpl. by rewrite (outers_unfold _ Hwf), Hp.
Qed.

Lemma sim_user_action H x act e : opt_list x ⊆ H →
  sim (RR H) (user_action ch U (fst <$> x) (snd <$> x) act e) (a_user_action ch U x act e) (λ _ _, RR H) (RR H).
Proof.
  intros Hx. destruct act as [n|]; simpl; [|by apply sim_ret]. apply sim_env_RR. apply sim_fix. intros a.
  apply (sim_pure_l _ _ (wfa H a)); [intros s' t' (HR & _); apply (R_wf _ _ _ _ HR)|]. intros Hw.
  apply sim_look_RR; [|apply sim_RA_RR, sim_ucall_x_RR].
  destruct x as [x|]; [|done]. apply (wa_H _ _ _ Hw), Hx. left.
Qed.

Lemma sim_depart t x i act e ctx :
  sim (RR (opt_list ctx)) (depart ch U x.2 x.1 i t.2 (fst <$> ctx) (snd <$> ctx) act e)
    (a_depart ch U (opt_list ctx) ctx t x i act e) (λ _ _, RR (opt_list ctx)) (RR (opt_list ctx)).
Proof.
  unfold depart, a_depart. destruct (early ch x.1 i act) as [j|].
  - eapply sim_bind.
    { eapply sim_weaken; [apply sim_outward|done|done|intros ? ? []]. }
    intros p w. apply (sim_pure_l _ _ (p = w.2 ∧ termination_state ch x.1 j = Some w.1)).
    { by intros ? ? (? & ? & _). } intros [-> ->].
    apply (sim_pre _ (RR (opt_list ctx))); [by intros ? ? (_ & _ & ?)|].
    apply sim_fix. intros a. apply sim_core_r, sim_assert_r. intros Hw.
    eapply (sim_crun _ _ _ _ _ _ _ _ (crun_add_ref ch w _ a Hw)). intros _.
    apply sim_RA_RR. eapply sim_bind.
    + eapply (sim_finally _ _ _ _ _ (λ _ _, RR (w :: opt_list ctx)) _ (RR (w :: opt_list ctx))).
      * apply sim_get_env. intros f. eapply sim_bind; [apply sim_terminate_state|]. intros ? ?.
        apply sim_env_RR. apply (sim_user_action _ (Some w)). intros y ->%elem_of_list_singleton. left.
      * intros ? ?. by apply sim_RR_bot, sim_rel.
      * by apply sim_RR_bot, sim_rel.
      * apply (sim_nodiv _ (ret tt)). unfold a_user_action. nodiv.
    + intros ? ?. apply sim_get_env. intros f. eapply sim_bind; [apply sim_terminate_state|]. intros ? ?.
      apply sim_env_RR'.
  - apply sim_get_env. intros f. eapply sim_bind; [apply sim_terminate_state|]. intros ? ?.
    apply sim_env_RR. by apply sim_user_action.
Qed.

Lemma sim_transit x d act e :
  sim (RR []) (transit ch U x.2 x.1 d act e) (a_transit ch U x d act e) (λ _ _, RR []) (RR []).
Proof.
  unfold transit, a_transit. apply sim_env_RR.
  destruct (transit_ok ch x.1 d); [|apply sim_faulty].
  destruct (common_context_spec ch Hwf x.1 (init_cls d)) as (i & cc & ts & -> & _ & Hts & Hcc & _).
  eapply sim_bind.
  { eapply sim_weaken; [apply sim_outward|done|done|intros ? ? []]. }
  intros p t. apply (sim_pure_l _ _ (p = t.2 ∧ ts = t.1)).
  { intros ? ? (? & Ht & _). rewrite Hts in Ht. injection Ht as ->. done. } intros [-> ->].
  apply (sim_pre _ (RR [])); [by intros ? ? (_ & _ & ?)|].
  apply sim_fix. intros a. apply sim_core_r, sim_assert_r. intros Ht.
  apply sim_alive_l; [done|]. intros o _ ->.
  set (ctx := ctx_of ch a t.1).
  apply (sim_pure_l _ _ (wfa [] a)); [intros s' t' (HR & _); apply (R_wf _ _ _ _ HR)|]. intros Hw.
  assert (alive_opt ch a ctx) as Hctx.
  { unfold ctx. destruct (ctx_of ch a t.1) as [q|] eqn:Hc; [|done]. destruct t as [c p].
    by destruct (ctx_of_alive _ _ _ _ _ _ Hw Ht Hc). }
  assert (cc = fst <$> ctx) as ->.
  { unfold ctx. destruct t as [c p]. simpl in *. destruct (ctx_of ch a c) as [q|] eqn:Hc; simpl.
    - destruct (ctx_of_alive _ _ _ _ _ _ Hw Ht Hc). congruence.
    - by rewrite <-Hcc, (ctx_of_None _ _ _ _ _ Hw Ht Hc). }
  eapply (sim_crun _ _ _ _ _ _ _ _ (crun_add_ref_ctx ch ctx [] a Hctx)). intros _.
  apply (sim_pre _ (RR (opt_list ctx))).
  { intros s' t' Hst. apply RA_RR in Hst. by rewrite app_nil_r in Hst. }
  eapply (sim_finally _ _ _ _ _ (λ _ _, RR (opt_list ctx)) _ (RR (opt_list ctx))).
  - eapply sim_bind; [apply sim_depart|]. intros ? ?.
    unfold constructs, a_constructs. by apply sim_constructs.
  - intros ? ?. pose proof (sim_rel_ctx ch U Hwf [] ctx) as Hr. rewrite app_nil_r in Hr. by apply sim_RR_bot.
  - pose proof (sim_rel_ctx ch U Hwf [] ctx) as Hr. rewrite app_nil_r in Hr. by apply sim_RR_bot.
  - apply (sim_nodiv _ (ret tt)). unfold a_user_action, a_constructs. nodiv.
Qed.

Lemma sim_decide x e r :
  sim (RR []) (decide_result ch U x.2 x.1 e r) (a_decide ch U x e r) (λ v v' s t, v = v' ∧ RR [] s t) (RR []).
Proof.
  destruct r as [| | |d act| |y]; simpl.
  - by apply sim_ret.
  - by apply sim_ret.
  - apply sim_fix. intros a. apply sim_core_r, sim_assert_r. intros Hx.
    apply sim_on_core_r. 
    eapply (sim_crun _ _ _ _ _ _ _ _ (crun_defer ch Hwf x [] a Hx)). intros _. apply sim_ret.
    intros ? ? Hst. split; [done|]. by eapply RA_RR.
  - eapply sim_bind; [apply sim_transit|]. intros ? ?. by apply sim_ret.
  - apply sim_env_RR. eapply sim_bind; [apply sim_terminate_as_reaction|]. intros ? ?. by apply sim_ret.
  - apply sim_env_RR. by apply sim_throw.
Qed.

Lemma sim_run_reaction a x i r e : alive a x →
  sim (RA [] a) (run_reaction ch U x.2 x.1 i r e) (a_run_reaction ch U x i r e)
    (λ v v' s t, v = v' ∧ RR [] s t) (RR []).
Proof.
  intros Hx. unfold run_reaction, a_run_reaction. destruct r as [p d act|p|p|p act|p].
  all: try apply sim_RA_RR, sim_decide.
  - eapply (sim_bind _ _ _ _ _ (λ _ _, RR [])).
    + destruct act as [n|]; [|apply sim_ret; intros ? ?; apply RA_RR]. apply sim_on_env.
      apply (sim_look_RR [] a (Some x)); [done|]. apply sim_RA_RR, sim_ucall_x_RR.
    + intros ? ?. by apply sim_ret.
  - apply sim_on_env. apply (sim_look_RR [] a (Some x)); [done|].
    eapply (sim_bind _ _ _ _ _ (λ v v' s t, v = v' ∧ RR [] s t)).
    + eapply sim_weaken; [apply sim_ucall, RA_leaves|done| |].
      * intros ? ? ? ? [? ?]. split; [done|by eapply RA_RR].
      * intros ? ? [].
    + intros v v'. apply (sim_pure_l _ _ (v = v')); [by intros ? ? [? _]|]. intros ->.
      eapply sim_pre; [|apply sim_decide]. by intros ? ? [_ ?].
Qed.

Lemma sim_local_react a x i l e : alive a x →
  sim (RA [] a) (local_react ch U x.2 x.1 i l e) (a_local_react ch U x i l e)
    (λ v v' s t, v = v' ∧ RR [] s t) (RR []).
Proof.
  intros Hx. revert i. induction l as [|r l IH]; intros i; simpl.
  { apply sim_ret. intros ? ? ?. split; [done|]. by eapply RA_RR. }
  destruct (matches (reaction_pat r) e); [by apply sim_run_reaction|apply IH].
Qed.

Lemma sim_react n x e :
  sim (RR []) (react_impl ch U n x.2 e) (a_react_impl ch U n x e)
    (λ v v' s t, v = v' ∧ RR [] s t) (RR []).
Proof.
  revert x. induction n as [|n IH]; intros x; simpl; [apply sim_faulty|].
  apply sim_fix. intros a. apply sim_core_r, sim_assert_r. intros Hx.
  apply sim_alive_l; [done|]. intros o -> _. apply sim_on_env.
  eapply sim_bind; [by apply sim_local_react|]. intros v v'.
  apply (sim_pure_l _ _ (v = v')); [by intros ? ? [? _]|]. intros ->.
  apply (sim_pre _ (RR [])); [by intros ? ? [_ ?]|]. apply sim_env_RR.
  destruct v'; try by apply sim_ret.
  apply sim_fix. intros b. apply sim_core_r, sim_assert_r. intros Hxb.
  apply sim_alive_l; [done|]. intros o' _ ->.
  destruct (ctx_of ch b x.1) as [q|]; simpl.
  - apply sim_RA_RR, IH.
  - apply sim_ret. intros ? ? ?. split; [done|by eapply RA_RR].
Qed.

Lemma sim_with_trig {A B} t (m : M S A) (m' : M T B) (f : A → B → Prop) :
  nodiv m' →
  sim (RR []) m m' (λ v v' s t, f v v' ∧ RR [] s t) (RR []) →
  sim (RR []) (with_trig t m) (a_with_trig t m') (λ v v' s t, f v v' ∧ RR [] s t) (RR []).
Proof.
  intros Hd Hm. unfold with_trig, a_with_trig. apply sim_get_env. intros old. apply sim_env_RR.
  eapply sim_finally; [exact Hm| | |].
  - intros v v'. apply (sim_pure_l _ _ (f v v')); [by intros ? ? [? _]|]. intros Hf.
    apply (sim_pre _ (RR [])); [by intros ? ? [_ ?]|].
    eapply sim_weaken; [apply sim_env_RR' with (E := RR [])|done|done|done].
  - apply sim_env_RR'.
  - by apply (sim_nodiv _ m).
Qed.

Lemma sim_guarded {A B} (m : M S A) (m' : M T B) Q :
  nodiv m' → sim (RR []) m m' Q (RR []) → sim (RR []) (guarded ch U m) (a_guarded ch U m') Q (RR []).
Proof.
  intros Hd Hm. unfold guarded, a_guarded. eapply sim_on_exn; [exact Hm| |].
  - apply sim_terminate_machine.
  - by apply (sim_nodiv _ m).
Qed.

Lemma sim_logged_exn {A B} (m : M S A) (m' : M T B) k Q :
  nodiv m' → sim (RR []) m m' Q (RR []) →
  sim (RR []) (on_exn m (emit k)) (on_exn m' (emit k)) Q (RR []).
Proof.
  intros Hd Hm. eapply sim_on_exn; [exact Hm|apply sim_env_RR'|]. by apply (sim_nodiv _ m).
Qed.

Lemma sim_logged {A B} (m : M S A) (m' : M T B) k (f : A → B → Prop) :
  nodiv m' →
  sim (RR []) m m' (λ v v' s t, f v v' ∧ RR [] s t) (RR []) →
  sim (RR []) (finally m (emit k)) (finally m' (emit k)) (λ v v' s t, f v v' ∧ RR [] s t) (RR []).
Proof.
  intros Hd Hm. eapply sim_finally; [exact Hm| | |].
  - intros v v'. apply (sim_pure_l _ _ (f v v')); [by intros ? ? [? _]|]. intros Hf.
    apply (sim_pre _ (RR [])); [by intros ? ? [_ ?]|].
    eapply sim_weaken; [apply sim_env_RR' with (E := RR [])|done|done|done].
  - apply sim_env_RR'.
  - by apply (sim_nodiv _ m).
Qed.

Lemma sim_handle xe y cur :
  sim (RR []) (handle_exception ch U xe y (snd <$> cur)) (a_handle_exception ch U xe y cur)
    (λ v v' s t, v = v' ∧ RR [] s t) (RR []).
Proof.
  unfold handle_exception, a_handle_exception. apply sim_gets_r. intros t0. apply sim_gets_l. intros s0.
  apply (sim_pure_l _ _ (RR [] s0 t0)); [by intros ? ? [[? ->] ->]|]. intros H0.
  apply (sim_pre _ (RR [])); [by intros ? ? [[? _] _]|].
  rewrite (terminated_eq _ _ _ H0). destruct (a_terminated t0); [by apply sim_throw|].
  assert (match unst (core s0) with None => snd <$> cur | Some u => Some u end
        = snd <$> match aunst (core t0) with None => cur | Some u => Some u end) as ->.
  { destruct H0 as [HR _]. rewrite (R_unst _ _ _ _ HR). by destruct (aunst (core t0)). }
  destruct (match aunst (core t0) with None => cur | Some u => Some u end) as [x|]; simpl; [|apply sim_faulty].
  apply (sim_bind _ _ _ _ _ (λ v v' s t, v = v' ∧ RR [] s t)).
  2:{ intros v v'. apply (sim_pure_l _ _ (v = v')); [by intros ? ? [? _]|]. intros ->.
      apply (sim_pre _ (RR [])); [by intros ? ? [_ ?]|]. apply sim_env_RR. by apply sim_ret. }
  apply sim_logged_exn.
  { unfold a_with_trig, a_react. nodiv. }
  apply sim_with_trig.
  { unfold a_react. nodiv. }
  apply sim_env_RR. apply sim_env_RR. eapply sim_bind; [apply sim_react|]. intros v v'.
  apply (sim_pure_l _ _ (v = v')); [by intros ? ? [? _]|]. intros ->.
  apply (sim_pre _ (RR [])); [by intros ? ? [_ ?]|].
  apply sim_env_RR. apply sim_fix. intros a. apply sim_unst_l.
  apply sim_gets_r. intros u. apply (sim_pure_l _ _ (u = aunst a)).
  { by intros ? ? [(_ & <- & _) ->]. }
  intros ->. apply (sim_pre _ (RR [])); [intros ? ? [? _]; by eapply RA_RR|].
  assert (bool_decide (snd <$> aunst a = None) = bool_decide (aunst a = None)) as ->.
  { apply bool_decide_ext. destruct (aunst a); simpl; naive_solver. }
  destruct (bool_decide (v' = RDiscard) && bool_decide (aunst a = None)).
  - by apply sim_ret.
  - by apply sim_throw.
Qed.

Lemma sim_translated m m' cur :
  nodiv m' →
  sim (RR []) m m' (λ v v' s t, v = v' ∧ RR [] s t) (RR []) →
  sim (RR []) (translated ch U m (snd <$> cur)) (a_translated ch U m' cur)
    (λ v v' s t, v = v' ∧ RR [] s t) (RR []).
Proof.
  intros Hd Hm. unfold translated, a_translated. eapply sim_catching; [exact Hm| |].
  - intros x. apply sim_env_RR. destruct (u_translate U x) as [xe|]; [|by apply sim_throw]. apply sim_handle.
  - by apply (sim_nodiv _ m).
Qed.

Lemma sim_dispatch n n' i e : n' ≤ n →
  sim (RR []) (dispatch ch U n i e) (a_dispatch ch U n' i e) (λ v v' s t, v = v' ∧ RR [] s t) (RR []).
Proof.
  revert n i. induction n' as [|n' IH]; intros n i Hn.
  - simpl. apply sim_fix. intros a. apply sim_core_r. case_bool_decide; [|apply sim_faulty].
    intros s t Hst. pose proof Hst as (HR & _).
    assert (dispatch ch U n i e s = (Ret RForward, s)) as ->.
    { destruct n; simpl; unfold bind at 1, gets at 1;
        rewrite (R_send _ _ _ _ HR), bool_decide_true by done; done. }
    simpl. eexists _, s. split; [done|]. split; [done|]. by eapply RA_RR.
  - destruct n as [|n]; [lia|]. simpl. apply sim_fix. intros a. apply sim_core_r.
    apply sim_gets_l. intros h.
    apply (sim_pure_l _ _ (R [] h a)). { intros s t ((HR & _) & ->). done. } intros HR.
    apply (sim_pre _ (RA [] a)); [by intros ? ? [? _]|].
    rewrite (R_send _ _ _ _ HR). case_bool_decide.
    { apply sim_ret. intros ? ? ?. split; [done|by eapply RA_RR]. }
    destruct (ord a !! i) as [x|] eqn:Ex; [|apply sim_faulty].
    rewrite (R_slots _ _ _ _ HR _ _ Ex). apply sim_RA_RR.
    eapply sim_bind.
    { apply (sim_translated _ _ (Some x)); [apply nodiv_react|apply sim_react]. }
    intros v v'. apply (sim_pure_l _ _ (v = v')); [by intros ? ? [? _]|]. intros ->.
    apply (sim_pre _ (RR [])); [by intros ? ? [_ ?]|].
    destruct v'; try by apply sim_ret. apply IH. lia.
Qed.

Lemma nodiv_send_event e : nodiv (a_send_event ch U e).
Proof.
  unfold a_send_event, a_with_trig.
  assert (nodiv (a_guarded ch U (let! a := gets core in
          assert (aunst a = None) ;! a_dispatch ch U (length (ord a)) 0 e))).
  { apply nodiv_guarded. pose proof (nodiv_dispatch ch U). nodiv. }
  nodiv.
Qed.

Lemma sim_send_event e :
  sim (RR []) (send_event ch U e) (a_send_event ch U e) (λ v v' s t, v = v' ∧ RR [] s t) (RR []).
Proof.
  unfold send_event, a_send_event. apply sim_logged.
  { assert (nodiv (a_guarded ch U (let! a := gets core in
          assert (aunst a = None) ;! a_dispatch ch U (length (ord a)) 0 e))).
    { apply nodiv_guarded. pose proof (nodiv_dispatch ch U). nodiv. }
    unfold a_with_trig. nodiv. }
  apply sim_with_trig.
  { assert (nodiv (a_guarded ch U (let! a := gets core in
          assert (aunst a = None) ;! a_dispatch ch U (length (ord a)) 0 e))).
    { apply nodiv_guarded. pose proof (nodiv_dispatch ch U). nodiv. }
    nodiv. }
  apply sim_fix. intros a0. apply sim_core_r. apply sim_gets_l. intros h0.
  apply (sim_pure_l _ _ (R [] h0 a0)). { intros s t ((HR & _) & ->). done. } intros HR0.
  rewrite (leaves_eq _ _ _ _ HR0).
  apply (sim_pre _ (RR [])); [intros ? ? [? _]; by eapply RA_RR|].
  apply sim_env_RR. eapply (sim_bind _ _ _ _ _ (λ v v' s t, v = v' ∧ RR [] s t)).
  - apply sim_guarded.
    { pose proof (nodiv_dispatch ch U). nodiv. }
    apply sim_fix. intros a. apply sim_core_r, sim_assert_r. intros Hu.
    apply sim_gets_l. intros h.
    apply (sim_pure_l _ _ (R [] h a)). { intros s t ((HR & _) & ->). done. } intros HR.
    apply (sim_pre _ (RR [])); [intros ? ? [? _]; by eapply RA_RR|].
    rewrite (R_unst _ _ _ _ HR), Hu. simpl. apply sim_unit_l. apply sim_dispatch.
    apply (R_len _ _ _ _ HR).
  - intros v v'. apply (sim_pure_l _ _ (v = v')); [by intros ? ? [? _]|]. intros ->.
    apply (sim_pre _ (RR [])); [by intros ? ? [_ ?]|].
    destruct v'; try by apply sim_ret. apply sim_env_RR.
    apply sim_fix. intros a. apply (sim_look_RR [] a None); [done|]. apply sim_RA_RR.
    eapply sim_bind; [apply sim_ucall_x_RR|]. intros ? ?. by apply sim_ret.
Qed.

Lemma sim_defer_if r e :
  sim (RR []) (defer_if U r e) (a_defer_if U r e) (λ _ _, RR []) (RR []).
Proof.
  destruct r; simpl; try by apply sim_ret. eapply (sim_bind _ _ _ _ _ (λ _ _, RR [])); [|intros _ _; apply sim_env_RR'].
  apply sim_fix. intros a. eapply sim_weaken; [apply sim_alloc|intros s t Hst; exact Hst|intros ? ? s t Hst|intros s t Hst].
  all: exact (RA_RR ch [] a s t Hst).
Qed.

Lemma sim_process_queued n :
  sim (RR []) (process_queued ch U n) (a_process_queued ch U n) (λ _ _, RR []) (RR []).
Proof.
  induction n as [|n IH]; simpl; apply sim_get_env; intros [|e q]; try by apply sim_ret.
  - by apply sim_diverge.
  - apply sim_env_RR. eapply sim_bind; [apply sim_send_event|]. intros v v'.
    apply (sim_pure_l _ _ (v = v')); [by intros ? ? [? _]|]. intros ->.
    apply (sim_pre _ (RR [])); [by intros ? ? [_ ?]|].
    eapply sim_bind; [apply sim_defer_if|]. intros ? ?. apply IH.
Qed.

Lemma sim_unit_op (m : M S unit) (m' : M T unit) :
  nodiv m' → sim (RR []) m m' (λ _ _, RR []) (RR []) →
  sim (RR []) (with_trig None (guarded ch U (translated ch U (m ;! ret RDiscard) None ;! ret tt)))
    (a_with_trig None (a_guarded ch U (a_translated ch U (m' ;! ret RDiscard) None ;! ret tt)))
    (λ _ _, RR []) (RR []).
Proof.
  intros Hd Hm. eapply sim_weaken; [eapply (sim_with_trig _ _ _ (λ _ _, True))| done| by intros ? ? ? ? [_ ?] |done].
  - assert (nodiv (a_translated ch U (m' ;! ret RDiscard) None)).
    { apply nodiv_translated. nodiv. }
    apply nodiv_guarded. nodiv.
  - apply sim_guarded.
    { assert (nodiv (a_translated ch U (m' ;! ret RDiscard) None)).
      { apply nodiv_translated. nodiv. }
      nodiv. }
    eapply sim_bind.
    + apply (sim_translated _ _ None); [nodiv|]. eapply sim_bind; [exact Hm|]. intros ? ?. by apply sim_ret.
    + intros ? ?. apply sim_ret. by intros ? ? [_ ?].
Qed.

Lemma sim_terminate : sim (RR []) (terminate ch U) (a_terminate ch U) (λ _ _, RR []) (RR []).
Proof.
  unfold terminate, a_terminate. apply sim_unit_op; [nodiv|]. apply sim_terminate_machine.
Qed.

Lemma sim_initiate n : sim (RR []) (initiate ch U n) (a_initiate ch U n) (λ _ _, RR []) (RR []).
Proof.
  unfold initiate, a_initiate. eapply sim_bind; [apply sim_terminate|]. intros ? ?.
  eapply sim_bind; [apply sim_unit_op|].
  - unfold a_constructs. nodiv.
  - unfold constructs, a_constructs. by apply (sim_constructs ch U Hwf [] [] _ None).
  - intros ? ?. apply sim_process_queued.
Qed.

Lemma sim_process_event n e :
  sim (RR []) (process_event ch U n e) (a_process_event ch U n e) (λ _ _, RR []) (RR []).
Proof.
  unfold process_event, a_process_event. apply sim_env_RR. eapply sim_bind; [apply sim_send_event|]. intros v v'.
  apply (sim_pure_l _ _ (v = v')); [by intros ? ? [? _]|]. intros ->.
  apply (sim_pre _ (RR [])); [by intros ? ? [_ ?]|].
  eapply sim_bind; [apply sim_defer_if|]. intros ? ?. apply sim_process_queued.
Qed.

Theorem sim_call o : sim (RR []) (call ch U o) (a_call ch U o) (λ _ _, RR []) (RR []).
Proof.
  destruct o; simpl.
  - apply sim_initiate.
  - apply sim_terminate.
  - apply sim_process_event.
  - apply sim_env_RR'.
  - destruct (clear_ok _ _ _ _); [|apply sim_faulty]. apply sim_env_RR'.
  - destruct (clear_ok _ _ _ _); [|apply sim_faulty]. apply sim_env_RR'.
Qed.

Theorem sim_destroy_machine :
  sim (RR []) (destroy ch U) (a_destroy_machine ch U) (λ _ _, RR []) (RR []).
Proof. apply sim_terminate_machine. Qed.

Theorem RR_fresh (w : W) : RR [] (fresh w) (a_fresh w).
Proof.
  assert (∀ x, ¬ alive (ACore ∅ ∅ [] None 0) x) as Hal.
  { intros x. unfold Abs.alive. simpl. by rewrite lookup_empty. }
  split; [|done]. split; simpl; try done.
  - split; simpl; try done.
    all: try (intros; exfalso; by eapply Hal).
    + constructor.
    + set_solver.
    + by intros x ?%elem_of_nil.
Qed.

End refine.
