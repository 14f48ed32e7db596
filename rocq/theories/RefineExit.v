(** Simulation: leaving states. *)
From Verif Require Export RefineBuild.

Section exit.
Context {W : Type} (ch : chart) (U : user W) (Hwf : wf_chart ch = true).
Notation alive := (alive ch).
Notation R := (R ch).
Notation wfa := (wfa ch).
Notation refs := (refs ch).
Notation kids := (kids ch).
Notation S := (mst W heapst).
Notation T := (mst W acore).
Notation RA H a := (RP (λ h, R H h a) a).
Notation RR := (RR ch).

Lemma sim_RR_bot {A B} H (m : M S A) (m' : M T B) Q E :
  sim (RR H) m m' Q bot → sim (RR H) m m' Q E.
Proof. intros Hs. eapply sim_weaken; [exact Hs|done|done|intros ? ? []]. Qed.

Lemma sim_RA_RR {A B} H a (m : M S A) (m' : M T B) Q E :
  sim (RR H) m m' Q E → sim (RA H a) m m' Q E.
Proof. intros Hs. eapply sim_weaken; [exact Hs| |done|done]. intros ? ? ?. by eapply RA_RR. Qed.

Lemma sim_pre {A B} (P P' : S → T → Prop) (m : M S A) (m' : M T B) Q E :
  (∀ s t, P s t → P' s t) → sim P' m m' Q E → sim P m m' Q E.
Proof. intros HP Hs s t Hst. apply Hs, HP, Hst. Qed.

Lemma sim_user_exit H a x : alive a x →
  sim (RA H a) (user_exit ch U x.2 x.1) (a_user_exit ch U x) (λ _ _, RA H a) (RA H a).
Proof.
  intros Hx. unfold user_exit, a_user_exit. apply sim_on_env. apply (sim_look ch Hwf).
  { intros h HR. apply R_readable in HR. split; [done|]. by apply anchored_alive. }
  eapply sim_bind; [apply sim_ucall_x; apply RA_leaves|]. intros [] []. unfold new_record.
  apply sim_iter. apply Forall2_same_length_lookup_2; [done|]. intros i z z' E1 E2.
  rewrite E1 in E2. injection E2 as <-. apply sim_new_element.
Qed.

Definition exit_go (n : nat) (p : ptr) (c : cls) (ctx : option ptr) (fe : bool) : M S unit :=
  let! u := gets (λ s, unst (core s)) in
  (if bool_decide (u = None) then assign_unst ctx else ret tt) ;!
  when fe
    (on_exn (user_exit ch U p c) (rel ch U p) ;!
     on_env (store_history ch c)) ;!
  add_ref_ctx ctx ;!
  rel ch U p ;!
  match ctx with
  | None => ret tt
  | Some q => exit_impl ch U n q fe
  end.

Lemma refs_others H a x :
  bool_decide (kids a x.1 ≠ []) || bool_decide (x ∈ ord a) || bool_decide (x ∈ H) = false ↔
  refs H a x = b2n (bool_decide (aunst a = Some x)).
Proof.
  unfold RefineBase.refs. rewrite !orb_false_iff.
  assert (bool_decide (x ∈ H) = false ↔ count_in x H = 0) as ->.
  { by rewrite bool_decide_eq_false, count_in_0. }
  assert (bool_decide (kids a x.1 ≠ []) = false ↔ length (kids a x.1) = 0) as ->.
  { rewrite bool_decide_eq_false. destruct (kids a x.1); simpl; [by split; auto|].
    split; [intros Hn; exfalso; by apply Hn|lia]. }
  destruct (bool_decide (x ∈ ord a)), (bool_decide (aunst a = Some x)); simpl; intuition lia.
Qed.

(** The middle part of exit_impl, once the outermost unstable state is set. *)
Lemma sim_exit_tail n H a x fe (k : option ptr → M S unit) (k' : option aid → M T unit) :
  alive a x → busy ch H a x = false →
  (∀ q, ctx_of ch a x.1 = Some q → sim (RR (q :: H)) (k (Some q.2)) (k' (Some q)) (λ _ _, RR H) (RR H)) →
  (ctx_of ch a x.1 = None → sim (RR H) (k None) (k' None) (λ _ _, RR H) (RR H)) →
  n = depth_fuel ch →
  sim (RA (x :: H) a)
    (when fe
      (on_exn (user_exit ch U x.2 x.1) (rel ch U x.2) ;!
       on_env (store_history ch x.1)) ;!
     add_ref_ctx (snd <$> ctx_of ch a x.1) ;!
     rel ch U x.2 ;!
     k (snd <$> ctx_of ch a x.1))
    ((when fe
      (on_exn (a_user_exit ch U x) (drop_ ch U H x) ;!
       on_env (store_history ch x.1)) ;!
      a_destroy ch U x) ;!
     k' (ctx_of ch a x.1))
    (λ _ _, RR H) (RR H).
Proof.
  intros Hx Hb HkS HkN ->.
  apply (sim_pure_l _ _ (wfa (x :: H) a)); [intros s t (HR & _); apply (R_wf _ _ _ _ HR)|]. intros Hw.
  apply sim_assoc_r.
  eapply (sim_bind _ _ _ _ _ (λ _ _, RA (x :: H) a)).
  { destruct fe; simpl; [|by apply sim_ret].
    eapply (sim_bind _ _ _ _ _ (λ _ _, RA (x :: H) a)).
    - eapply sim_on_exn; [by apply sim_user_exit| |].
      + apply sim_RA_RR. apply sim_RR_bot. by apply sim_rel.
      + intros s t _. pose proof (nodiv_user_exit ch U x t). by destruct (a_user_exit ch U x t) as [[]].
    - intros ? ?. by apply sim_on_env'. }
  intros ? ?.
  set (ctx := ctx_of ch a x.1) in *.
  assert (alive_opt ch a ctx) as Hctx.
  { unfold ctx. destruct (ctx_of ch a x.1) as [q|] eqn:Hc; [|done]. destruct x as [c p].
    by destruct (ctx_of_alive _ _ _ _ _ _ Hw Hx Hc). }
  eapply (sim_crun _ _ _ _ _ _ _ _ (crun_add_ref_ctx ch ctx (x :: H) a Hctx)).
  intros ?. apply (sim_pre _ (RA (x :: opt_list ctx ++ H) a)).
  { intros s t (HR & ? & ?). split; [|done]. eapply R_perm; [exact HR|].
    intros y. rewrite count_in_app, !count_in_cons, count_in_app. lia. }
  set (H1 := opt_list ctx ++ H).
  assert (busy ch H1 a x = false) as Hb1.
  { unfold busy in Hb |- *. rewrite !orb_false_iff, !bool_decide_eq_false in Hb.
    destruct Hb as [[[Hb1 Hb2] Hb3] Hb4].
    rewrite !orb_false_iff, !bool_decide_eq_false. repeat split; try done.
    unfold H1. rewrite elem_of_app. intros [Hin|Hin]; [|done].
    destruct ctx as [q|] eqn:Hc; [|by apply elem_of_nil in Hin].
    apply elem_of_list_singleton in Hin. subst q. destruct x as [c p].
    destruct (ctx_of_alive _ _ _ _ _ _ Hw Hx Hc) as [_ Hp]. apply (parent_lt _ Hwf) in Hp. simpl in Hp. lia. }
  unfold rel, depth_fuel. replace (2 * ncls ch + 2) with (Datatypes.S (Datatypes.S (2 * ncls ch))) by lia.
  remember (Datatypes.S (2 * ncls ch)) as m eqn:Hm. simpl. apply sim_assoc_l.
  eapply (sim_crun _ _ _ _ _ _ _ _ (crun_deref ch x (x :: H1) a Hx)).
  intros o.
  apply (sim_pure_l _ _ (o_rc o = 1 ∧ o_ctx o = Some (snd <$> ctx))).
  { intros s t ((HR & Ho) & _). destruct (R_lookup _ _ _ _ _ HR Hx) as (o' & Ho' & E1 & E2 & E3 & _).
    assert (o' = o) as -> by congruence. split; [|done]. rewrite E2. unfold RefineBase.refs.
    apply busy_refs in Hb1. unfold RefineBase.refs in Hb1.
    rewrite count_in_cons, (bool_decide_true (x = x)) by done. simpl. lia. }
  intros [Hrc Hoc]. rewrite Hrc.
  apply sim_assoc_l.
  intros s t Hst.
  pose proof (sim_destroy ch U Hwf H1 a x o
    (λ _, match o_ctx o with Some (Some q) => release ch U m q | _ => ret tt end ;! k (snd <$> ctx))
    (λ _, k' ctx) (λ _ _, RR H) (RR H) Hx Hb1) as Hd.
  assert (∀ X (u : S → X), True) as _ by done.
  match goal with |- context [bind (on_heap ?f) ?K s] =>
    replace (bind (on_heap f) K s) with
      ((on_heap f;! emit (ODtor x.2 (o_cls o));! user_dtor ch U x.2 (o_cls o);!
        bind (unlink ch x.2) (λ _, match o_ctx o with Some (Some q) => release ch U m q | _ => ret tt end ;! k (snd <$> ctx))) s)
  end.
  2:{ unfold bind. destruct (on_heap _ s) as [[]]; try done. destruct (emit _ _) as [[]]; try done.
      destruct (user_dtor _ _ _ _ _) as [[]]; try done. destruct (unlink _ _ _) as [[]]; try done. }
  apply Hd; [|done]. intros _. clear Hd.
  rewrite Hoc. fold ctx. unfold H1 in *. destruct ctx as [q|] eqn:Hc; simpl.
  - assert (alive (destroyed ch x a) q) as Hq.
    { eapply busy_false_ctx; try done. }
    subst m.
    eapply sim_crun; [apply (crun_release ch U Hwf (2 * ncls ch) q (q :: H) (destroyed ch x a) Hq)|].
    { apply busy_cons. }
    intros ?. apply sim_RA_RR. by apply HkS.
  - apply sim_unit_l. apply sim_RA_RR. by apply HkN.
Qed.
Lemma set_unst_None H h a : R H h a → aunst a = None → R H h (set_aunst None a).
Proof. intros HR Hn. destruct a; simpl in *; subst. done. Qed.

Lemma sim_exit_go n H a x fe :
  alive a x →
  bool_decide (kids a x.1 ≠ []) || bool_decide (x ∈ ord a) || bool_decide (x ∈ H) = false →
  (∀ q, sim (RR (q :: H)) (exit_impl ch U n q.2 fe) (a_exit ch U n H q fe) (λ _ _, RR H) (RR H)) →
  sim (RA (x :: H) a)
    (if bool_decide (aunst a = Some x)
     then assign_unst (snd <$> ctx_of ch a x.1) ;! exit_go n x.2 x.1 (snd <$> ctx_of ch a x.1) fe
     else exit_go n x.2 x.1 (snd <$> ctx_of ch a x.1) fe)
    (a_exit1 ch U H x fe ;!
     match ctx_of ch a x.1 with
     | None => ret tt
     | Some q => a_exit ch U n H q fe
     end)
    (λ _ _, RR H) (RR H).
Proof.
  intros Hx Hoth IH. set (ctx := ctx_of ch a x.1).
  apply (sim_pure_l _ _ (wfa (x :: H) a)); [intros s t (HR & _); apply (R_wf _ _ _ _ HR)|]. intros Hw.
  rewrite !orb_false_iff, !bool_decide_eq_false in Hoth. destruct Hoth as [[Ho1 Ho2] Ho3].
  assert (ctx ≠ Some x) as Hcx.
  { unfold ctx. intros Hc. destruct x as [c p].
    destruct (ctx_of_alive _ _ _ _ _ _ Hw Hx Hc) as [_ Hp]. apply (parent_lt _ Hwf) in Hp. simpl in Hp. lia. }
  assert (∀ u, u ≠ Some x →
    sim (RA (x :: H) (set_aunst u a))
    (when fe
      (on_exn (user_exit ch U x.2 x.1) (rel ch U x.2) ;!
       on_env (store_history ch x.1)) ;!
     add_ref_ctx (snd <$> ctx) ;!
     rel ch U x.2 ;!
     match snd <$> ctx with None => ret tt | Some q => exit_impl ch U n q fe end)
    ((when fe
      (on_exn (a_user_exit ch U x) (drop_ ch U H x) ;!
       on_env (store_history ch x.1)) ;!
      a_destroy ch U x) ;!
     match ctx with None => ret tt | Some q => a_exit ch U n H q fe end)
    (λ _ _, RR H) (RR H)) as Htail.
  { intros u Hu.
    apply (sim_exit_tail (depth_fuel ch) H (set_aunst u a) x fe
      (λ c, match c with None => ret tt | Some q => exit_impl ch U n q fe end)
      (λ c, match c with None => ret tt | Some q => a_exit ch U n H q fe end)).
    - done.
    - unfold busy. rewrite !orb_false_iff, !bool_decide_eq_false.
      split; [split; [split; [exact Ho1|exact Ho2]|exact Hu]|exact Ho3].
    - intros q _. apply IH.
    - intros _. by apply sim_ret.
    - done. }
  assert (∀ b, aunst a = b → a = set_aunst b a) as Heta by (intros b <-; by destruct a).
  unfold a_exit1. apply sim_assoc_r. apply sim_core_r. fold ctx. apply sim_assoc_r.
  case_bool_decide as Hux.
  - rewrite bool_decide_true by auto.
    apply sim_assign_unst. intros _. unfold exit_go.
    eapply (sim_bind_l _ _ _ _ (λ u s t, u = snd <$> ctx ∧ RA (x :: H) (set_aunst ctx a) s t)).
    { intros s t (HR & Ht & He). eexists _, s. split; [done|]. split; [|done].
      apply (R_unst _ _ _ _ HR). }
    intros u. apply (sim_pure_l _ _ (u = snd <$> ctx)); [by intros ? ? [? _]|]. intros ->.
    apply (sim_pre _ (RA (x :: H) (set_aunst ctx a))); [by intros ? ? [_ ?]|].
    case_bool_decide as Hn.
    + destruct ctx as [q|] eqn:Hc; [done|]. simpl.
      eapply (sim_bind_l _ _ _ _ (λ _, RA (x :: H) (set_aunst None a))).
      { intros s t (HR & Ht & He).
        destruct (crun_assign_unst (W:=W) ch None (x :: H) (set_aunst None a)) with s
          as (v & s' & Heq & He' & HR'); [done|done|done|].
        exists v, s'. split; [done|]. split; [done|]. split; [done|congruence]. }
      intros _. apply (Htail None). done.
    + apply sim_unit_l. apply (Htail ctx). done.
  - unfold exit_go.
    eapply (sim_bind_l _ _ _ _ (λ u s t, u = snd <$> aunst a ∧ RA (x :: H) a s t)).
    { intros s t (HR & Ht & He). eexists _, s. split; [done|]. split; [|done].
      apply (R_unst _ _ _ _ HR). }
    intros u. apply (sim_pure_l _ _ (u = snd <$> aunst a)); [by intros ? ? [? _]|]. intros ->.
    apply (sim_pre _ (RA (x :: H) a)); [by intros ? ? [_ ?]|].
    destruct (aunst a) as [u|] eqn:Eu; simpl.
    + rewrite (bool_decide_false (Some u = None ∨ Some u = Some x)) by naive_solver.
      apply sim_unit_l, sim_unit_r. rewrite (Heta _ eq_refl). apply (Htail (Some u)). done.
    + apply sim_assign_unst. intros _. apply (Htail ctx). done.
Qed.

Lemma sim_exit n H x fe :
  sim (RR (x :: H)) (exit_impl ch U n x.2 fe) (a_exit ch U n H x fe) (λ _ _, RR H) (RR H).
Proof.
  revert x. induction n as [|n IH]; intros x; [apply sim_faulty|].
  apply sim_fix. intros a. simpl. apply sim_core_r. apply sim_assert_r. intros Hx.
  apply (sim_pure_l _ _ (wfa (x :: H) a)); [intros s t (HR & _); apply (R_wf _ _ _ _ HR)|]. intros Hw.
  eapply (sim_crun _ _ _ _ _ _ _ _ (crun_deref ch x (x :: H) a Hx)). intros o.
  apply (sim_pure_l _ _ (o_cls o = x.1 ∧ o_rc o = Datatypes.S (refs H a x) ∧ o_ctx o = Some (snd <$> ctx_of ch a x.1))).
  { intros s t ((HR & Ho) & _). destruct (R_lookup _ _ _ _ _ HR Hx) as (o' & Ho' & E1 & E2 & E3 & _).
    assert (o' = o) as -> by congruence. split; [done|]. split; [|done].
    rewrite E2. unfold RefineBase.refs.
    rewrite count_in_cons, (bool_decide_true (x = x)) by done. simpl. lia. }
  intros (Hcl & Hrc & Hctx).
  eapply (sim_bind_l _ _ _ _ (λ u s t, u = snd <$> aunst a ∧ RA (x :: H) a s t)).
  { intros s t ((HR & Ho) & Ht & He). eexists _, s. split; [done|]. split; [|done].
    apply (R_unst _ _ _ _ HR). }
  intros u. apply (sim_pure_l _ _ (u = snd <$> aunst a)); [by intros ? ? [? _]|]. intros ->.
  apply (sim_pre _ (RA (x :: H) a)); [by intros ? ? [_ ?]|].
  rewrite Hctx, Hcl, Hrc. cbn iota.
  assert (bool_decide (snd <$> aunst a = Some x.2) = bool_decide (aunst a = Some x)) as Hbu.
  { apply bool_decide_ext. split; [|by intros ->]. destruct (aunst a) as [u|] eqn:Eu; [|done].
    simpl. intros [= Heq]. f_equal. apply (wfa_alive_inj _ _ _ _ _ Hw); [|done|done].
    by apply (wa_unst _ _ _ Hw). }
  rewrite Hbu.
  pose proof (refs_others H a x) as Hoth.
  destruct (bool_decide (kids a x.1 ≠ []) || bool_decide (x ∈ ord a) || bool_decide (x ∈ H)) eqn:Eoth.
  - assert (busy ch H a x = true) as Hb.
    { unfold busy. rewrite !orb_true_iff in Eoth. rewrite !orb_true_iff. tauto. }
    apply busy_refs_pos in Hb as Hpos.
    assert (sim (RA (x :: H) a) (rel ch U x.2) (ret tt) (λ _ _, RR H) (RR H)) as Hrel.
    { unfold rel, depth_fuel. replace (2 * ncls ch + 2) with (Datatypes.S (2 * ncls ch + 1)) by lia.
      eapply sim_crun'; [by apply (crun_release ch U Hwf)|]. intros ?. apply sim_ret.
      intros ? ? ?. by eapply RA_RR. }
    assert (refs H a x ≠ b2n (bool_decide (aunst a = Some x))) as Hne.
    { intros Heq. apply Hoth in Heq. done. }
    destruct (bool_decide (aunst a = Some x)); simpl in Hne.
    + rewrite (bool_decide_false (Datatypes.S (refs H a x) = 2)) by lia.
      rewrite (bool_decide_false (Datatypes.S (refs H a x) = 1)) by lia. exact Hrel.
    + rewrite (bool_decide_false (Datatypes.S (refs H a x) = 1)) by lia.
      destruct (bool_decide (Datatypes.S (refs H a x) = 2)); exact Hrel.
  - assert (refs H a x = b2n (bool_decide (aunst a = Some x))) as Heq by by apply Hoth.
    rewrite Heq. pose proof (sim_exit_go n H a x fe Hx Eoth IH) as Hgo. unfold exit_go in Hgo.
    destruct (bool_decide (aunst a = Some x)); simpl; exact Hgo.
Qed.

(** ** Taking leaves off the list *)
Lemma find_eq_Some (x : aid) l i y : list_find (eq x) l = Some (i, y) → l !! i = Some x ∧ y = x.
Proof. rewrite list_find_Some. intros (Hl & <- & _). done. Qed.

Lemma release_base_eq p (s : S) o r : heap (core s) !! p = Some o → o_rc o = Datatypes.S (Datatypes.S r) →
  release_base p s =
  (Ret tt, MSt (set_heap (<[p := set_rc (Datatypes.S r) o]> (heap (core s))) (core s)) (en s)).
Proof.
  intros Ho Hr. unfold release_base. rewrite (bind_eq _ _ _ _ _ (deref_eq _ _ _ Ho)). by rewrite Hr.
Qed.

Lemma exit_slot_step (s : S) e p o fe :
  slots (core s) !! e = Some (Some p) → heap (core s) !! p = Some o → 1 ≤ o_rc o →
  exit_slot ch U e fe s =
  exit_impl ch U (depth_fuel ch) p fe (MSt (set_slots (<[e := None]> (slots (core s))) (core s)) (en s)).
Proof.
  intros Hs Ho Hrc. unfold exit_slot. unfold bind at 1, gets at 1. rewrite Hs.
  erewrite bind_eq by (by apply add_ref_eq).
  erewrite bind_eq by done.
  destruct (o_rc o) as [|r] eqn:Er; [lia|].
  erewrite bind_eq by (apply (release_base_eq _ _ (set_rc (Datatypes.S r + 1) o) r);
    [simpl; by rewrite lookup_insert|simpl; lia]).
  do 2 f_equal. unfold set_slots, set_heap. simpl. f_equal. rewrite insert_insert. apply insert_id.
  rewrite Ho. f_equal. unfold set_rc. simpl. rewrite <-Er. by destruct o.
Qed.

Lemma sim_remove_leaf H a x fe :
  alive a x →
  sim (RA H a) (remove_leaf ch U x.2 fe) (a_unlist x ;! exit_ ch U H x fe) (λ _ _, RR H) (RR H).
Proof.
  intros Hx. unfold a_unlist. apply sim_assoc_r, sim_core_r.
  destruct (list_find (eq x) (ord a)) as [[i y]|] eqn:Ef; [|apply sim_faulty].
  apply find_eq_Some in Ef as [Hi ->].
  apply sim_on_core_r. intros s t (HR & Ht & He).
  destruct (last (ord a)) as [z|] eqn:Hz; [|apply last_None in Hz; by rewrite Hz in Hi].
  destruct (unlist_slot ch s H a x i z HR Hi Hz) as (oz & Hoz & HR').
  pose proof (R_wf _ _ _ _ HR) as Hw.
  pose proof (lookup_lt_Some _ _ _ Hi) as Hlt.
  pose proof (R_len _ _ _ _ HR) as Hlen.
  pose proof Hz as Hz'. rewrite last_lookup in Hz'.
  destruct (R_lookup _ _ _ _ _ HR Hx) as (o & Ho & Hcl & Hrc & _ & _ & _ & Hlp).
  specialize (Hlp i Hi).
  assert (1 ≤ o_rc o) as Hrc1.
  { rewrite Hrc. unfold RefineBase.refs. rewrite (bool_decide_true (x ∈ ord a)).
    - simpl. lia.
    - by eapply elem_of_list_lookup_2. }
  assert (∃ s', remove_leaf ch U x.2 fe s = exit_impl ch U (depth_fuel ch) x.2 fe s' ∧ 
     en s' = en s ∧ R (x :: H) (core s') (set_ord (swap_remove i (ord a)) a)) as (s' & Heq & He' & HRs').
  { eexists (MSt _ (en s)). split; [|split; [done|exact HR']].
    unfold remove_leaf. erewrite bind_eq by (by apply deref_eq).
    unfold bind at 1, gets at 1. rewrite (R_send _ _ _ _ HR), Hlp.
    destruct (length (ord a)) as [|e] eqn:El; [lia|].
    replace (Datatypes.S e - 1) with e in * by lia. simpl in Hz'.
    rewrite (R_slots _ _ _ _ HR _ _ Hi), (R_slots _ _ _ _ HR _ _ Hz').
    erewrite bind_eq by done.
    erewrite bind_eq by (apply store_eq; simpl; exact Hoz).
    simpl.
    assert (∃ o', (<[z.2:=set_lpos (Some i) oz]> (heap (core s))) !! x.2 = Some o' ∧ 1 ≤ o_rc o') as (o' & Ho' & Hr').
    { destruct (decide (z.2 = x.2)) as [Hzx|Hzx].
      - rewrite Hzx, lookup_insert. eexists. split; [done|]. simpl.
        assert (oz = o) as -> by congruence. done.
      - rewrite lookup_insert_ne by done. eauto. }
    erewrite exit_slot_step.
    - simpl. do 2 f_equal. unfold set_slots, set_heap, set_send. simpl. f_equal.
      destruct (decide (i = e)) as [->|Hne].
      + by rewrite !list_insert_insert.
      + rewrite (list_insert_commute _ i e), list_insert_insert by done. done.
    - simpl. destruct (decide (i = e)) as [->|Hne].
      + rewrite list_lookup_insert by (rewrite insert_length; lia). congruence.
      + rewrite list_lookup_insert_ne by done. rewrite list_lookup_insert by lia. done.
    - simpl. exact Ho'.
    - done. }
  rewrite Heq. unfold exit_. apply (sim_exit (depth_fuel ch) H x fe s').
  split; [by rewrite Ht|congruence].
Qed.

(** The optimised branch of terminate_impl for a single innermost state. *)
Lemma sim_remove_single H a y fe :
  ord a = [y] →
  sim (RA H a) (on_core (set_send 0) ;! exit_slot ch U 0 fe)
    (a_unlist y ;! exit_ ch U H y fe) (λ _ _, RR H) (RR H).
Proof.
  intros Hord. unfold a_unlist. apply sim_assoc_r, sim_core_r.
  rewrite Hord. simpl. rewrite decide_True by done. simpl.
  apply sim_on_core_r. intros s t (HR & Ht & He).
  assert (ord a !! 0 = Some y) as Hi by by rewrite Hord.
  assert (last (ord a) = Some y) as Hz by by rewrite Hord.
  destruct (unlist_slot ch s H a y 0 y HR Hi Hz) as (oy & Hoy & HR').
  rewrite Hord in HR' at 1 2. simpl length in HR'.
  pose proof (R_wf _ _ _ _ HR) as Hw.
  pose proof (R_len _ _ _ _ HR) as Hlen. rewrite Hord in Hlen. simpl in Hlen.
  assert (alive a y) as Hy. { apply (wa_ord _ _ _ Hw). rewrite Hord. left. }
  destruct (R_lookup _ _ _ _ _ HR Hy) as (o & Ho & Hcl & Hrc & _ & _ & _ & Hlp).
  specialize (Hlp 0 Hi). assert (o = oy) as -> by congruence.
  assert (1 ≤ o_rc oy) as Hrc1.
  { rewrite Hrc. unfold RefineBase.refs. rewrite (bool_decide_true (y ∈ ord a)).
    - simpl. lia.
    - rewrite Hord. left. }
  erewrite bind_eq by done.
  erewrite exit_slot_step; [|simpl; exact (R_slots _ _ _ _ HR _ _ Hi)|simpl; exact Hoy|done].
  apply (sim_exit (depth_fuel ch) H y fe). split; [|done].
  assert (core t = set_ord (swap_remove 0 (ord a)) a) as -> by (by rewrite Ht, Hord).
  cbn [core en]. unfold set_send, set_slots. cbn [heap nxt slots send outermost unst].
  simpl in HR'. rewrite list_insert_insert in HR'.
  rewrite insert_id in HR'; [exact HR'|].
  rewrite Hoy. f_equal. unfold set_lpos. destruct oy; simpl in *. by subst.
Qed.

Lemma find_inner a c :
  fst <$> list_find (λ x, x ≠ None) (inner_of ch a c)
  = fst <$> list_find (λ k, occ a !! (Some c, k) ≠ None) (seq 0 (nreg ch c)).
Proof.
  unfold inner_of. generalize (nreg ch c) as n. intros n.
  rewrite list_find_fmap.
  rewrite (list_find_ext _ (λ k, occ a !! (Some c, k) ≠ None)).
  - destruct (list_find _ _) as [[i k]|]; done.
  - intros k. simpl. destruct (occ a !! (Some c, k)); simpl; naive_solver.
Qed.

Lemma sim_remove n H x fe :
  sim (RR H) (remove_from ch U n x.2 fe) (a_remove ch U n H x fe) (λ _ _, RR H) (RR H).
Proof.
  revert x. induction n as [|n IH]; intros x; [apply sim_faulty|].
  apply sim_fix. intros a. simpl. apply sim_core_r. apply sim_assert_r. intros Hx.
  apply (sim_pure_l _ _ (wfa H a)); [intros s t (HR & _); apply (R_wf _ _ _ _ HR)|]. intros Hw.
  eapply (sim_crun _ _ _ _ _ _ _ _ (crun_deref ch x H a Hx)). intros o.
  apply (sim_pure_l _ _ (o_cls o = x.1 ∧ o_inner o = inner_of ch a x.1)).
  { intros s t ((HR & Ho) & _). destruct (R_lookup _ _ _ _ _ HR Hx) as (o' & Ho' & E1 & E2 & E3 & E4 & _).
    assert (o' = o) as -> by congruence. done. }
  intros (Hcl & Hin). rewrite Hcl, Hin.
  apply (sim_pre _ (RA H a)); [by intros ? ? ((? & _) & ?)|].
  destruct (is_leaf ch x.1) eqn:Hl.
  - by apply sim_remove_leaf.
  - pose proof (find_inner a x.1) as Hf.
    destruct (list_find (λ k, occ a !! (Some x.1, k) ≠ None) (seq 0 (nreg ch x.1))) as [[f k]|];
    destruct (list_find (λ x, x ≠ None) (inner_of ch a x.1)) as [[f' k']|]; try done; simpl in Hf.
    + injection Hf as ->.
      replace (length (inner_of ch a x.1)) with (nreg ch x.1)
        by (unfold inner_of; by rewrite fmap_length, seq_length).
      apply sim_RA_RR. apply sim_iter. apply Forall2_same_length_lookup_2; [done|].
      intros i u v Hu Hv. assert (u = v) as -> by congruence.
      apply sim_fix. intros b. apply sim_core_r, sim_assert_r. intros Hxb.
      eapply (sim_crun _ _ _ _ _ _ _ _ (crun_deref ch x H b Hxb)). intros ob.
      apply (sim_pure_l _ _ (o_inner ob = inner_of ch b x.1)).
      { intros s t ((HR & Ho) & _).
        destruct (R_lookup _ _ _ _ _ HR Hxb) as (o' & Ho' & E1 & E2 & E3 & E4 & _).
        assert (o' = ob) as -> by congruence. done. }
      intros ->. apply (sim_pre _ (RA H b)); [by intros ? ? ((? & _) & ?)|].
      assert (v < nreg ch x.1) as Hv'.
      { apply elem_of_list_lookup_2, elem_of_list_In, in_rev, in_seq in Hv. lia. }
      unfold inner_of. rewrite list_lookup_fmap, lookup_seq_lt by done. simpl.
      destruct (occ b !! (Some x.1, v)) as [y|]; simpl.
      * apply sim_RA_RR. apply IH.
      * apply sim_ret. intros ? ? ?. by eapply RA_RR.
    + apply sim_assert_r. intros Hun.
      eapply (sim_bind_l _ _ _ _ (λ u s t, u = snd <$> aunst a ∧ RA H a s t)).
      { intros s t (HR & Ht & He). eexists _, s. split; [done|]. split; [|done].
        apply (R_unst _ _ _ _ HR). }
      intros u. apply (sim_pure_l _ _ (u = snd <$> aunst a)); [by intros ? ? [? _]|]. intros ->.
      apply (sim_pre _ (RA H a)); [by intros ? ? [_ ?]|].
      rewrite Hun. simpl. rewrite bool_decide_true by done. apply sim_unit_l.
      eapply (sim_crun _ _ _ _ _ _ _ _ (crun_add_ref ch x H a Hx)). intros ?.
      apply sim_RA_RR. apply sim_exit.
Qed.

End exit.
