(** * Invariants of [fifo_worker] under all interleavings *)
From Verif Require Export FifoSpec.

Section inv.
Context {P : Type}.
Implicit Types (s : fifo P) (t : tid) (p : tpc P).
Local Arguments set_pc : simpl never.
Local Arguments notify : simpl never.

Definition holding p : bool :=
  match p with
  | TQPush _ | TQNotify | TQUnlock | TDCheck | TDWhile | TDSleep | TDPop | TDUnlock _ => true
  | _ => false
  end.
Definition queueing p : bool :=
  match p with TQLock _ | TQPush _ | TQNotify | TQUnlock => true | _ => false end.
(** Executing user code or a call made by it. *)
Definition outside p : bool :=
  match p with TUser => true | _ => queueing p end.
Definition outstanding p : list (item P) :=
  match p with TQLock i | TQPush i => [i] | _ => [] end.
Definition inhand p : list (item P) :=
  match p with TDUnlock (Some i) | TGot (Some i) => [i] | _ => [] end.
(** Between the loop condition and the call of the item. *)
Definition dequeueing p : bool :=
  match p with
  | TGot _ | TDLock | TDCheck | TDWhile | TDSleep | TDWait | TDWoken | TDPop | TDUnlock _ => true
  | _ => false
  end.
Definition may_wait p : bool :=
  match p with TDWhile | TDSleep | TDWait | TDWoken => true | _ => false end.

Definition busy (f : frame P) : Prop := is_Some (fitem f).
Definition bounded (f : frame P) : Prop := fmax f = 0 ∨ fcount f ≤ fmax f.
Definition room (f : frame P) : Prop := fmax f = 0 ∨ fcount f < fmax f.

Definition stack_ok (p : tpc P) (fs : list (frame P)) : Prop :=
  if outside p then Forall (λ f, busy f ∧ room f) fs
  else ∃ f fs', fs = f :: fs' ∧ Forall (λ f, busy f ∧ room f) fs' ∧
    match p with
    | TTest => fitem f = None ∧ bounded f
    | TTerm => fitem f = Some ITerm ∧ room f
    | _ => fitem f = None ∧ room f
    end.

(** The termination item was called and nothing after it. *)
Definition ended (l : list (item P)) : Prop := ∃ l', l = l' ++ [ITerm] ∧ ITerm ∉ l'.

Record Inv s : Prop := {
  i_mtx t : fmtx s = Some t ↔ holding (fpc s t) = true;
  i_prod t : t ≠ worker → outside (fpc s t) = true;
  i_fifo : pushed (ftr s) = started (ftr s) ++ inhand (fpc s worker) ++ fqueue s;
  i_ask t : asked t (ftr s) = pushed_of t (ftr s) ++ outstanding (fpc s t);
  i_ans t : length (asked t (ftr s)) = answered t (ftr s) + (if queueing (fpc s t) then 1 else 0);
  i_frames : frames (ftr s) = fstack s;
  i_stack : stack_ok (fpc s worker) (fstack s);
  i_term : if fterm s then ended (started (ftr s)) ∧ dequeueing (fpc s worker) = false ∧ fpc s worker ≠ TTerm
           else match fpc s worker with
                | TTerm => ended (started (ftr s))
                | _ => ITerm ∉ started (ftr s)
                end;
  i_wait : fpc s worker = TDWait → fqueue s = [] ∨ ∃ t, fpc s t = TQNotify;
  i_sleep : fpc s worker = TDSleep → fqueue s = [];
  i_pop : fpc s worker = TDPop → fqueue s ≠ [];
  i_block : may_wait (fpc s worker) = true → fwait s = true ∨ (fpc s worker = TDWhile ∧ fqueue s ≠ []);
  i_dry : fpc s worker = TDUnlock None ∨ fpc s worker = TGot None → fwait s = false ∧ ran_dry (ftr s);
}.

Lemma set_pc_eq f t p : set_pc f t p t = p.
Proof. unfold set_pc. by rewrite decide_True. Qed.
Lemma set_pc_ne f t u p : u ≠ t → set_pc f t p u = f u.
Proof. intros. unfold set_pc. by rewrite decide_False. Qed.

Lemma inv_init wait : Inv (@fifo_init P wait).
Proof.
  split; simpl; try done; try naive_solver.
  - unfold stack_ok; simpl. constructor.
  - apply not_elem_of_nil.
Qed.

Lemma notify_mtx s : fmtx (notify s) = fmtx s.
Proof. unfold notify. by destruct (fpc s 0). Qed.
Lemma notify_queue s : fqueue (notify s) = fqueue s.
Proof. unfold notify. by destruct (fpc s 0). Qed.
Lemma notify_term s : fterm (notify s) = fterm s.
Proof. unfold notify. by destruct (fpc s 0). Qed.
Lemma notify_stack s : fstack (notify s) = fstack s.
Proof. unfold notify. by destruct (fpc s 0). Qed.
Lemma notify_tr s : ftr (notify s) = ftr s.
Proof. unfold notify. destruct (fpc s 0); simpl; by rewrite ?app_nil_r. Qed.
Lemma notify_wait s : fwait (notify s) = fwait s.
Proof. unfold notify. by destruct (fpc s 0). Qed.

Lemma notify_inv s : Inv s → Inv (notify s).
Proof.
  intros [Im Ip If Ia In Ifr Ist It Iw Isl Ipo Ib Id]. unfold notify. destruct (fpc s 0) eqn:E; try by split; rewrite ?E.
  split; simpl; rewrite ?app_nil_r.
  - intros t. destruct (decide (t = 0)) as [->|]; [|by rewrite set_pc_ne].
    rewrite ?set_pc_eq. rewrite Im, E. done.
  - intros t ?. rewrite set_pc_ne by done. auto.
  - by rewrite ?set_pc_eq.
  - intros t. destruct (decide (t = 0)) as [->|]; [|by rewrite set_pc_ne].
    rewrite ?set_pc_eq. rewrite Ia, E. done.
  - intros t. destruct (decide (t = 0)) as [->|]; [|by rewrite set_pc_ne].
    rewrite ?set_pc_eq. rewrite In, E. done.
  - done.
  - by rewrite ?set_pc_eq.
  - rewrite ?set_pc_eq. destruct (fterm s); naive_solver.
  - rewrite ?set_pc_eq. done.
  - rewrite ?set_pc_eq. done.
  - rewrite ?set_pc_eq. done.
  - rewrite ?set_pc_eq. intros _. left. destruct (Ib eq_refl); naive_solver.
  - rewrite ?set_pc_eq. intros [|]; done.
Qed.

(** A step of a thread is a move [goto] from a state that differs in what it may. *)
Lemma held s t u : Inv s → holding (fpc s t) = true → holding (fpc s u) = true → t = u.
Proof. intros I H1 H2. apply (i_mtx s I) in H1, H2. congruence. Qed.

Lemma ended_elem l : ended l → ITerm ∈ l.
Proof. intros (l' & -> & _). apply elem_of_app. right. by apply elem_of_list_singleton. Qed.

Lemma notify_pc s t : fpc (notify s) t =
  if decide (t = 0) then match fpc s 0 with TDWait => TDWoken | p => p end else fpc s t.
Proof.
  unfold notify. case_decide as E; [subst|].
  - destruct (fpc s 0) eqn:E0; simpl; rewrite ?E0; auto using set_pc_eq.
  - destruct (fpc s 0) eqn:E0; simpl; rewrite ?set_pc_ne; auto.
Qed.

Ltac tcase t u :=
  let E := fresh in destruct (decide (t = u)) as [E|E];
  [first [subst u|subst t]; rewrite ?set_pc_eq in *|rewrite ?(set_pc_ne _ u t) in * by done].
Ltac pcs s :=
  repeat match goal with
  | H : fpc s ?t = _, H' : fpc s ?t = _ |- _ => rewrite H in H'; simplify_eq
  | H : fpc s ?t = _, H' : context [fpc s ?t] |- _ => rewrite H in H'
  | H : fpc s ?t = _ |- context [fpc s ?t] => rewrite H
  end.

Lemma step_mtx t s s' : Inv s → step t s s' →
  ∀ u, fmtx s' = Some u ↔ holding (fpc s' u) = true.
Proof.
  intros I Hs. pose proof (i_mtx s I) as Im.
  pose proof (i_mtx _ (notify_inv s I)) as Im'.
  intros u. pose proof (Im u) as Iu. pose proof (Im t) as It.
  pose proof (Im' u) as Iu'. clear I Im Im'.
  destruct Hs; simpl; try tcase u t; try tcase u 0;
    pcs s;
    simpl in *; rewrite ?notify_mtx in *; intuition congruence.
Qed.

Lemma step_prod t s s' : Inv s → step t s s' →
  ∀ u, u ≠ worker → outside (fpc s' u) = true.
Proof.
  intros I Hs u Hu. pose proof (i_prod s I u Hu) as Iu.
  pose proof (i_prod _ (notify_inv s I) u Hu) as Iu'. clear I.
  destruct Hs; simpl; try done; try tcase u t; try done; by rewrite ?(set_pc_ne _ 0 u) by done.
Qed.

Ltac events :=
  rewrite ?app_nil_r, ?pushed_app, ?started_app, ?asked_snoc, ?answered_app, ?pushed_of_app; simpl;
  rewrite ?app_nil_r.

Lemma notify_inhand s : inhand (fpc (notify s) 0) = inhand (fpc s 0).
Proof. rewrite notify_pc. case_decide; [|done]. by destruct (fpc s 0). Qed.

Lemma step_fifo t s s' : Inv s → step t s s' →
  pushed (ftr s') = started (ftr s') ++ inhand (fpc s' worker) ++ fqueue s'.
Proof.
  intros I Hs. pose proof (i_fifo s I) as If. clear I.
  destruct Hs; simpl; rewrite ?notify_tr, ?notify_queue; events; try tcase 0 t;
    pcs s;
    simpl in *; rewrite ?notify_inhand; pcs s; simpl in *; try done.
  all: unfold pushed in *; simpl; rewrite ?If; repeat match goal with H : fqueue _ = _ |- _ => rewrite H end;
    by rewrite <- ?app_assoc.
Qed.

Lemma step_ask t s s' : Inv s → step t s s' →
  ∀ u, asked u (ftr s') = pushed_of u (ftr s') ++ outstanding (fpc s' u).
Proof.
  intros I Hs u. pose proof (i_ask s I u) as Iu.
  pose proof (i_ask _ (notify_inv s I) u) as Iu'. clear I.
  destruct Hs; simpl; rewrite ?notify_tr in *; events; unfold pushed_of; simpl; events;
    try tcase u t; try tcase u 0; pcs s; simpl in *; try done.
  all: unfold pushed_of in *; rewrite ?filter_cons, ?filter_nil; repeat case_decide; simpl in *;
    rewrite ?app_nil_r in *; try congruence.
  all: rewrite Iu; by rewrite ?removelast_last, ?app_assoc.
Qed.

Lemma removelast_length (l : list (item P)) : length (removelast l) = pred (length l).
Proof. destruct l as [|i l _] using rev_ind; [done|]. rewrite removelast_last, app_length. simpl. lia. Qed.
Lemma step_ans t s s' : Inv s → step t s s' →
  ∀ u, length (asked u (ftr s')) = answered u (ftr s') + (if queueing (fpc s' u) then 1 else 0).
Proof.
  intros I Hs u. pose proof (i_ans s I u) as Iu.
  pose proof (i_ans _ (notify_inv s I) u) as Iu'. clear I.
  destruct Hs; simpl; rewrite ?notify_tr in *; events;
    try tcase u t; try tcase u 0; pcs s; simpl in *; try done.
  all: repeat case_decide; rewrite ?removelast_length, ?app_length; simpl in *; try lia; congruence.
Qed.

Lemma step_frames t s s' : Inv s → step t s s' → frames (ftr s') = fstack s'.
Proof.
  intros I Hs. pose proof (i_frames s I) as If. pose proof (i_stack s I) as Is. clear I.
  destruct Hs; simpl; rewrite ?notify_tr in *; rewrite ?app_nil_r, ?frames_app, ?If; simpl;
    try (by rewrite ?notify_stack); rewrite ?notify_stack;
    repeat match goal with H : fstack _ = _ |- _ => rewrite H end; try done; by destruct f.
Qed.

Lemma step_stack t s s' : Inv s → step t s s' → stack_ok (fpc s' worker) (fstack s').
Proof.
  intros I Hs. pose proof (i_stack s I) as Is. pose proof (i_stack _ (notify_inv s I)) as Is'. clear I.
  destruct Hs; simpl; try (tcase 0 t); pcs s; rewrite ?set_pc_eq; unfold stack_ok in *; simpl in *;
    rewrite ?notify_stack in *; try done.
  all: repeat match goal with H : fstack _ = _ |- _ => rewrite H in *; clear H end.
  all: clear Is'; try (destruct Is as (f' & fs' & [= <- <-] & Is & Hf & Hb)); try done.
  - eexists _, _. split; [done|]. split; [done|]. split; [done|]. right; simpl; lia.
  - eexists _, _. split; [done|]. split; [done|]. split; [done|].
    match goal with H : go_on _ _ = true |- _ => rename H into Hg end.
    unfold go_on in Hg. apply andb_true_iff in Hg as [_ Hg]. apply orb_true_iff in Hg as [Hg|Hg].
    + left. by apply Nat.eqb_eq in Hg.
    + right. by apply Nat.ltb_lt in Hg.
  - constructor; [|done]. split; [by eexists|]. done.
  - eexists _, _. done.
  - eexists _, _. split; [done|]. split; [done|]. split; [done|].
    destruct Hb; [by left|right; simpl; lia].
  - apply Forall_cons in Is as [[_ Hb] Is]. eexists _, _. split; [done|]. split; [done|]. split; [done|].
    destruct Hb; [by left|right; simpl; lia].
  - by apply Forall_cons in Is as [_ Is].
Qed.

Lemma ended_snoc l : ITerm ∉ l → ended (l ++ [ITerm]).
Proof. intros. by exists l. Qed.

Lemma step_term t s s' : Inv s → step t s s' →
  if fterm s' then ended (started (ftr s')) ∧ dequeueing (fpc s' worker) = false ∧ fpc s' worker ≠ TTerm
  else match fpc s' worker with
       | TTerm => ended (started (ftr s'))
       | _ => ITerm ∉ started (ftr s')
       end.
Proof.
  intros I Hs. pose proof (i_term s I) as Is. pose proof (i_term _ (notify_inv s I)) as Is'. clear I.
  destruct Hs; simpl; rewrite ?notify_tr, ?notify_term in *; events; try tcase 0 t; pcs s; rewrite ?set_pc_eq; simpl in *;
    try done.
  all: clear Is'; try (destruct (fterm s) eqn:E; [destruct_and!; done || (split_and?; done)|done]).
  - unfold go_on in *. match goal with H : _ && _ = true |- _ => apply andb_true_iff in H as [Hg _] end.
    destruct (fterm s); done.
  - destruct (fterm s); [by destruct_and!|]. apply not_elem_of_app. split; [done|].
    intros ?%elem_of_list_singleton. done.
  - destruct (fterm s); [by destruct_and!|]. by apply ended_snoc.
Qed.

Lemma step_wait t s s' : Inv s → step t s s' →
  fpc s' worker = TDWait → fqueue s' = [] ∨ ∃ u, fpc s' u = TQNotify.
Proof.
  intros I Hs. pose proof (i_wait s I) as Iw. pose proof (i_sleep s I) as Isl. pose proof (notify_pc s 0) as Hn.
  rewrite decide_True in Hn by done. 
  assert (∀ u, holding (fpc s u) = true → holding (fpc s t) = true → u = t) as Hh by eauto using held.
  clear I.
  destruct Hs; simpl; try tcase 0 t; pcs s; rewrite ?set_pc_eq; try done; try (by left).
  all: try (intros Hw; destruct (Iw Hw) as [?|[u Hu]]; [by left|]; right; exists u;
    tcase u t; [congruence|done]).
  - intros Hw. right. exists t. by rewrite set_pc_eq.
  - intros Hw. rewrite Hn in Hw. by destruct (fpc s 0).
  - left. auto.
Qed.

Lemma step_sleep t s s' : Inv s → step t s s' → fpc s' worker = TDSleep → fqueue s' = [].
Proof.
  intros I Hs. pose proof (i_sleep s I) as Iw. pose proof (notify_pc s 0) as Hn.
  rewrite decide_True in Hn by done.
  assert (∀ u, holding (fpc s u) = true → holding (fpc s t) = true → u = t) as Hh by eauto using held.
  clear I.
  destruct Hs; simpl; try tcase 0 t; pcs s; rewrite ?set_pc_eq; try done.
  - intros Hw. destruct (H0 (Hh 0 ltac:(by rewrite Hw) eq_refl)).
  - rewrite notify_queue. intros Hw. rewrite Hn in Hw. destruct (fpc s 0); auto; done.
Qed.

Lemma step_pop t s s' : Inv s → step t s s' → fpc s' worker = TDPop → fqueue s' ≠ [].
Proof.
  intros I Hs. pose proof (i_pop s I) as Iw. pose proof (notify_pc s 0) as Hn.
  rewrite decide_True in Hn by done. clear I.
  destruct Hs; simpl; try tcase 0 t; pcs s; rewrite ?set_pc_eq; try done.
  - intros _ [_ ?]%app_eq_nil. done.
  - rewrite notify_queue. intros Hw. rewrite Hn in Hw. destruct (fpc s 0); auto; done.
Qed.

Lemma step_block t s s' : Inv s → step t s s' →
  may_wait (fpc s' worker) = true → fwait s' = true ∨ (fpc s' worker = TDWhile ∧ fqueue s' ≠ []).
Proof.
  intros I Hs. pose proof (i_block s I) as Iw. pose proof (i_block _ (notify_inv s I)) as Iw'.
  pose proof (i_mtx s I 0) as Im.
  pose proof (i_mtx s I t) as Imt. clear I.
  destruct Hs; simpl; try tcase 0 t; pcs s; rewrite ?set_pc_eq; simpl in *; rewrite ?notify_queue, ?notify_wait in *;
    try done.
  all: try (intros Hw; destruct (Iw Hw) as [?|[? ?]]; [by left|]; pcs s; simpl in *; naive_solver).
  - intros _. destruct (fwait s); [by left|right]. split; [done|]. simpl in *. by case_bool_decide.
Qed.

Lemma step_dry t s s' : Inv s → step t s s' →
  fpc s' worker = TDUnlock None ∨ fpc s' worker = TGot None → fwait s' = false ∧ ran_dry (ftr s').
Proof.
  intros I Hs. pose proof (i_dry s I) as Iw. pose proof (i_dry _ (notify_inv s I)) as Iw'.
  pose proof (i_fifo s I) as If. clear I.
  destruct Hs; simpl; try tcase 0 t; pcs s; rewrite ?set_pc_eq; simpl in *; rewrite ?notify_tr, ?notify_wait, ?app_nil_r in *;
    try (intros [[=]|[=]]); auto; try done.
  all: try (destruct Iw as [??]; [tauto|]; split; [done|]; apply ran_dry_other; [done|];
    simpl; apply bool_decide_eq_false; congruence).
  - match goal with H : _ = true |- _ => apply andb_true_iff in H as [Hw Hq] end.
    apply bool_decide_eq_true in Hq. rewrite Hq, app_nil_r in If. split; [by destruct (fwait s)|].
    by apply ran_dry_end.
  - apply Iw. left. congruence.
Qed.

Lemma inv_step t s s' : Inv s → step t s s' → Inv s'.
Proof.
  intros I Hs. split; [by eapply step_mtx|by eapply step_prod|by eapply step_fifo|by eapply step_ask
    |by eapply step_ans|by eapply step_frames|by eapply step_stack|by eapply step_term|by eapply step_wait|by eapply step_sleep
    |by eapply step_pop|by eapply step_block|by eapply step_dry].
Qed.

Lemma freach_inv wait s : freach wait s → Inv s.
Proof. induction 1; eauto using inv_init, inv_step. Qed.

(** A call that is in progress or threw was made. *)
Lemma fail_called wait s : freach wait s → ∀ t i,
  (i ∈ outstanding (fpc s t) → FCall t i ∈ ftr s) ∧ (FFail t i ∈ ftr s → FCall t i ∈ ftr s).
Proof.
  induction 1 as [|u s s' Hr IH Hs]; intros t i; [split; by intros ?%elem_of_nil|].
  pose proof (IH t i) as [IH1 IH2].
  assert (FCall t i ∈ ftr s → FCall t i ∈ ftr s') as Hk.
  { destruct Hs; simpl; rewrite ?notify_tr, elem_of_app; by left. }
  split.
  - destruct (decide (u = t)) as [->|Hu].
    + destruct Hs; unfold goto; cbn [fpc ftr] in *; rewrite set_pc_eq; cbn [outstanding]; try (by intros ?%elem_of_nil).
      * intros ->%elem_of_list_singleton. apply elem_of_app. right. by left.
      * intros Hi. apply Hk, IH1. by rewrite H.
    + intros Hi. apply Hk, IH1. destruct Hs; unfold goto in Hi; cbn [fpc] in Hi; rewrite set_pc_ne in Hi by done; try done.
      rewrite notify_pc in Hi. case_decide; [subst|done]. by destruct (fpc s 0).
  - intros Hf. apply Hk. destruct Hs; simpl in Hf; rewrite ?notify_tr in Hf; apply elem_of_app in Hf as [Hf|Hf]; auto;
      try (by apply elem_of_nil in Hf); apply elem_of_list_singleton in Hf; simplify_eq.
    apply IH1. rewrite H. by left.
Qed.

Lemma freach_wait wait s : freach wait s → fwait s = wait.
Proof.
  induction 1 as [|t s s' _ IH Hs]; [done|]. rewrite <- IH.
  destruct Hs; simpl; rewrite ?notify_wait; done.
Qed.

(** Every step observes at most one thing, so every observation was made by one step from a reachable state. *)
Lemma step_tr t s s' : step t s s' → ftr s' = ftr s ∨ ∃ e, ftr s' = ftr s ++ [e].
Proof. destruct 1; simpl; rewrite ?notify_tr, ?app_nil_r; eauto. Qed.

Lemma observed wait s l1 e l2 : freach wait s → ftr s = l1 ++ e :: l2 →
  ∃ t s1 s2, freach wait s1 ∧ ftr s1 = l1 ∧ step t s1 s2 ∧ ftr s2 = l1 ++ [e].
Proof.
  intros Hr. revert l2. induction Hr as [|t s s' Hr IH Hs]; intros l2 Hl.
  - by destruct l1.
  - destruct (step_tr _ _ _ Hs) as [E|[e' E]]; rewrite E in Hl; [eauto|].
    destruct l2 as [|e2 l2 _] using rev_ind.
    + apply app_inj_tail in Hl as [<- ->]. eauto 10.
    + rewrite app_comm_cons, app_assoc in Hl. apply app_inj_tail in Hl as [Hl _]. eauto.
Qed.
End inv.
