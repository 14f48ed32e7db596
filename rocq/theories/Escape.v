(** What follows an exception. *)
From Verif Require Export Moves.

(** ** Vocabulary *)
(** After an exception, state objects are only destroyed; their destruction may release deferred events and
    call user code (destructors). *)
Definition falling (k : okind) : bool :=
  match k with ODtor _ _ | OCtorThrow _ _ | OPost _ | ORelease | OClearS _ _ | OClearD _ _ => true | _ => false end.
Definition is_throw (k : okind) : bool := match k with OThrow _ | OCatch _ => true | _ => false end.
(** The last entry that starts or ends something. *)
Definition last_mark (ks : list okind) : option okind := last (filter (λ k, dull k = false) ks).
(** A reaction is running and has not started a transition or a termination. *)
Definition in_state (t : list obs) : Prop :=
  mode_of t ≠ idle ∧ ∃ p c e, last_mark (map ob t) = Some (OVisit p c e).
(** The innermost state that was asked last. *)
Definition leaf_visits (ch : chart) (ks : list okind) : list obj :=
  omap (λ k, match k with OVisit p c _ => if is_leaf ch c then Some (c, p) else None | _ => None end) ks.

(** [t0] is the trace up to the beginning of the last transition or termination. *)
Definition moving_from (t0 t : list obs) : Prop :=
  ∃ b k T, t = t0 ++ Obs b k :: T ∧ moves k = true ∧ Forall (λ o, moves (ob o) = false) T.

Lemma last_mark_app ks ks' : last_mark (ks ++ ks') =
  match last_mark ks' with Some k => Some k | None => last_mark ks end.
Proof. unfold last_mark. by rewrite filter_app, last_app. Qed.
Lemma last_mark_dull ks : Forall (λ k, dull k = true) ks → last_mark ks = None.
Proof.
  intros H. unfold last_mark. assert (filter (λ k, dull k = false) ks = []) as ->; [|done].
  induction H as [|k ks Hk _ IH]; [done|]. rewrite filter_cons_False by congruence. done.
Qed.
Lemma last_mark_cons k ks : Forall (λ k, dull k = true) ks → dull k = false → last_mark (k :: ks) = Some k.
Proof.
  intros H Hk. change (k :: ks) with ([k] ++ ks). rewrite last_mark_app, last_mark_dull by done.
  unfold last_mark. by rewrite filter_cons_True.
Qed.

Definition nothrow (ks : list okind) : Prop := Forall (λ k, is_throw k = false) ks.
(** [y] is thrown; afterwards objects are destroyed. *)
Definition thrown (y : exn) (ks : list okind) : Prop :=
  ∃ k1 k2, ks = k1 ++ OThrow y :: k2 ∧ nothrow k1 ∧ Forall (λ k, falling k = true) k2.

Lemma quiet_nothrow ks : Forall (λ k, quiet k = true) ks → nothrow ks.
Proof. intros H. eapply Forall_impl; [exact H|]. by intros []. Qed.
Lemma calls_nothrow ks : calls ks → nothrow ks.
Proof. intros H. eapply Forall_impl; [exact H|]. intros [] []; done. Qed.
Lemma falling_nothrow ks : Forall (λ k, falling k = true) ks → nothrow ks.
Proof. intros H. eapply Forall_impl; [exact H|]. by intros []. Qed.
Lemma falling_dull ks : Forall (λ k, falling k = true) ks → Forall (λ k, dull k = true) ks.
Proof. intros H. eapply Forall_impl; [exact H|]. by intros []. Qed.
Lemma calls_falling ks : calls ks → Forall (λ k, falling k = true) ks.
Proof. intros H. eapply Forall_impl; [exact H|]. by intros [] []. Qed.
Lemma fading_falling ks : Forall (λ k, quiet k = true) ks → Forall (λ k, fading k = true) (lifes ks) →
  Forall (λ k, falling k = true) ks.
Proof.
  intros Hq Hf. rewrite Forall_forall in *. intros k Hk. specialize (Hq k Hk).
  destruct (is_life k) eqn:Hl; [|by destruct k].
  assert (fading k = true) as H by by apply Hf, elem_lifes. by destruct k.
Qed.
Lemma steady_nothrow ks : Forall (λ k, steady k = true) ks → nothrow ks.
Proof. intros H. eapply Forall_impl; [exact H|]. by intros []. Qed.
Lemma steady_dull ks : Forall (λ k, steady k = true) ks → Forall (λ k, dull k = true) ks.
Proof. intros H. eapply Forall_impl; [exact H|]. by intros []. Qed.
Lemma stops_thrown ch P y ks : stops ch P y ks → ∃ k1 k2, ks = k1 ++ OThrow y :: k2 ∧
  Forall (λ k, steady k = true) k1 ∧ Forall (λ k, falling k = true) k2.
Proof.
  intros (k1 & g & k2 & r & -> & H1 & H2 & _ & H3 & _). exists (k1 ++ refusal g), k2. split_and!.
  - by rewrite <-app_assoc.
  - apply Forall_app. split; [by apply quiets_steady|by destruct g; repeat constructor].
  - by apply fading_falling.
Qed.
Lemma not_moved ks : Forall (λ k, moves k = false) ks → ¬ moved ks.
Proof. intros H (k & Hk & Hm). rewrite Forall_forall in H. specialize (H k Hk). congruence. Qed.
Lemma dull_not_moved ks : Forall (λ k, dull k = true) ks → ¬ moved ks.
Proof. intros H. apply not_moved. eapply Forall_impl; [exact H|]. by intros []. Qed.
Lemma moved_app ks ks' : moved (ks ++ ks') ↔ moved ks ∨ moved ks'.
Proof. unfold moved. setoid_rewrite elem_of_app. naive_solver. Qed.
Lemma moved_cons k ks : moves k = false → moved (k :: ks) ↔ moved ks.
Proof.
  intros Hk. unfold moved. setoid_rewrite elem_of_cons. split; [|naive_solver].
  intros (k' & [->|Hk'] & Hm); [congruence|eauto].
Qed.

Section escape.
Context {W : Type} (ch : chart) (U : user W).
Context (Hwf : wf_chart ch = true).

(** ** Reactions *)
Lemma effect_nothrow t fe e x d ks r : effect ch t fe e x d ks (Done r) → nothrow ks.
Proof.
  inversion 1 as [| | | |d' act ks' [Hq _]| |ks' [Hq _]|]; subst; try by constructor.
  - constructor; [done|]. by apply quiet_nothrow.
  - constructor; [done|]. by apply quiet_nothrow.
Qed.
(** Whether a transition or termination had started when the exception was thrown. *)
Definition thrown_at (K : list okind → Prop) (y : exn) (ks : list okind) : Prop :=
  ∃ k1 k2, ks = k1 ++ OThrow y :: k2 ∧ nothrow k1 ∧ Forall (λ k, falling k = true) k2 ∧
    ((moved ks ∧ ∃ k, last_mark k1 = Some k ∧ moves k = true) ∨ (¬ moved ks ∧ K k1)).
Definition dulls (ks : list okind) : Prop := Forall (λ k, dull k = true) ks.
Lemma effect_thrown t fe e x d ks y : effect ch t fe e x d ks (Threw y) → thrown_at dulls y ks.
Proof.
  assert (∀ P k ks, stops ch P y ks → moves k = true → thrown_at dulls y (k :: ks)) as Hst.
  { intros P k ks0 Hst Hk. destruct (stops_thrown _ _ _ _ Hst) as (k1 & k2 & -> & H1 & H2).
    exists (k :: k1), k2. split_and!; [done| |done|left].
    - constructor; [by destruct k|]. by apply steady_nothrow.
    - split; [exists k; split; [left|done]|]. exists k. split; [|done].
      apply last_mark_cons; [by apply steady_dull|by destruct k]. }
  inversion 1; subst; [|by eapply Hst..]. exists [], []. split_and!; try by constructor. right. split; [|constructor].
  apply dull_not_moved. by repeat constructor.
Qed.
Lemma thrown_at_prepend (K K' : list okind → Prop) y ks0 ks : nothrow ks0 → ¬ moved ks0 →
  (∀ k1, K k1 → K' (ks0 ++ k1)) → thrown_at K y ks → thrown_at K' y (ks0 ++ ks).
Proof.
  intros H0 Hm HK (k1 & k2 & -> & H1 & H2 & H3). exists (ks0 ++ k1), k2.
  split_and!; [by rewrite <-app_assoc|by apply Forall_app|done|].
  rewrite moved_app. destruct H3 as [[H3 (k & H4 & H5)]|[H3 H4]]; [left|right].
  - split; [by right|]. exists k. split; [|done]. by rewrite last_mark_app, H4.
  - split; [tauto|]. by apply HK.
Qed.
Lemma turn_nothrow t fe e x ks r : turn ch U t fe e x ks (Done r) → nothrow ks.
Proof.
  intros H. inversion H; subst; try (by constructor); try (by eapply effect_nothrow).
  - destruct y; [done|]. match goal with H : called _ _ |- _ => inversion H; subst end.
    constructor; [done|]. by apply calls_nothrow.
  - constructor; [done|]. apply Forall_app. split; [by apply calls_nothrow|by eapply effect_nothrow].
Qed.
Lemma turn_thrown t fe e x ks y : turn ch U t fe e x ks (Threw y) → thrown_at dulls y ks.
Proof.
  intros H. inversion H; subst; try (by eapply effect_thrown).
  - match goal with H : called _ ?y |- _ => destruct y; [|done]; inversion H; subst end.
    match goal with H : Threw _ = Threw _ |- _ => injection H as -> end.
    match goal with H : calls ?k |- _ => rename k into ks1 end.
    exists (OInState n e :: ks1), []. split; [done|]. split_and!; [|constructor|right].
    + constructor; [done|]. by apply calls_nothrow.
    + assert (dulls (OInState n e :: ks1)). { constructor; [done|]. by apply calls_dull. }
      split; [|done]. apply dull_not_moved. rewrite app_comm_cons. apply Forall_app. split; [done|by repeat constructor].
  - change (OReact x.2 x.1 i e :: ks0 ++ ks') with ((OReact x.2 x.1 i e :: ks0) ++ ks').
    assert (dulls (OReact x.2 x.1 i e :: ks0)). { constructor; [done|]. by apply calls_dull. }
    eapply thrown_at_prepend; [| | |by eapply effect_thrown].
    + constructor; [done|]. by apply calls_nothrow.
    + by apply dull_not_moved.
    + intros k1 Hk. by apply Forall_app.
Qed.
Lemma search_nothrow t fe e x ks r : search ch U t fe e x ks (Done r) → nothrow ks.
Proof.
  intros Hs. remember (Done r) as o eqn:Eo in Hs. induction Hs; try done.
  - constructor; [done|]. apply Forall_app. split; [by eapply turn_nothrow|by repeat constructor].
  - constructor; [done|]. apply Forall_app. split; [by eapply turn_nothrow|by repeat constructor].
  - constructor; [done|]. apply Forall_app. split; [by eapply turn_nothrow|]. constructor; [done|]. by apply IHHs.
Qed.
Definition visiting (e : event) (ks : list okind) : Prop := ∃ p c, last_mark ks = Some (OVisit p c e).
Lemma search_thrown t fe e x ks y : search ch U t fe e x ks (Threw y) → thrown_at (visiting e) y ks.
Proof.
  intros Hs. remember (Threw y) as o eqn:Eo in Hs. induction Hs as [|x ks y' Ht| |x ks z ks' o Ht _ _ _ IH]; try done.
  - injection Eo as ->. change (OVisit x.2 x.1 e :: ks) with ([OVisit x.2 x.1 e] ++ ks).
    eapply thrown_at_prepend; [by repeat constructor| | |by eapply turn_thrown].
    + intros H%moved_cons; [|done]. by apply dull_not_moved in H; [|constructor].
    + intros k1 Hk. exists x.2, x.1. by apply last_mark_cons.
  - change (OVisit x.2 x.1 e :: ks ++ OResult x.2 x.1 RForward :: ks')
      with ((OVisit x.2 x.1 e :: ks) ++ [OResult x.2 x.1 RForward] ++ ks'). rewrite app_assoc.
    eapply thrown_at_prepend; [| | |by apply IH].
    + apply Forall_app. split; [|by repeat constructor]. constructor; [done|]. by eapply turn_nothrow.
    + rewrite moved_app. apply turn_forward in Ht.
      assert (dulls ks) as Hd. { eapply Forall_impl; [exact Ht|]. by intros k []. }
      intros [H%moved_cons|H]; [|done|]; [by apply dull_not_moved in H|].
      apply moved_cons in H; [|done]. by apply dull_not_moved in H; [|constructor].
    + intros k1 (p & c & Hk). exists p, c. by rewrite last_mark_app, Hk.
Qed.

(** No exit() while an exception is handled. *)
Lemma exits_false_exit L p c : OExit p c ∉ exits false L.
Proof. unfold exits. rewrite elem_of_list_In, in_flat_map. intros (y & _ & [H|[]]). done. Qed.
Lemma goes_no_exit (P : list okind → Prop) ks p c : (∀ K, P K → OExit p c ∉ K) → goes P ks → OExit p c ∉ ks.
Proof. intros HP [_ H] Hin. by apply (HP _ H), elem_lifes. Qed.
Lemma stops_no_exit (P : list okind → Prop) y ks p c : (∀ K, P K → OExit p c ∉ K) → stops ch P y ks → OExit p c ∉ ks.
Proof.
  intros HP (k1 & g & k2 & r & -> & H1 & H2 & H3 & H4 & _) [Hin|[Hin|[?|Hin]%elem_of_cons]%elem_of_app]%elem_of_app; [| |done|].
  - apply (HP _ H3). apply elem_of_app. left. by apply elem_lifes.
  - destruct g; simpl in Hin; [by apply elem_of_list_singleton in Hin|by apply elem_of_nil in Hin].
  - by apply (fading_no (OExit p c) k2).
Qed.
Lemma transit_plan_no_exit t e x d act p c K : transit_plan ch t false e x d act K → OExit p c ∉ K.
Proof.
  intros H Hin. apply (transit_plan_transition ch Hwf) in H as (cc & z & _ & _ & _ & _ & _ & HT).
  destruct (transition_removals ch Hwf _ _ _ _ _ _ _ _ _ HT) as (L & E & _).
  apply (exits_false_exit L p c). rewrite <-E. by apply removals_elem.
Qed.
Lemma terminate_plan_no_exit t x p c K : terminate_plan ch t false x K → OExit p c ∉ K.
Proof. intros (L & _ & _ & ->). apply exits_false_exit. Qed.
Lemma effect_no_exit t e x d ks o p c : effect ch t false e x d ks o → OExit p c ∉ ks.
Proof.
  intros He Hin. destruct He as [| | |y|d act ks H|d act y ks H|ks H|y ks H]; try (by apply elem_of_nil in Hin);
    apply elem_of_cons in Hin as [?|Hin]; try done; try (by apply elem_of_nil in Hin).
  - revert Hin. eapply goes_no_exit; [|exact H]. by apply transit_plan_no_exit.
  - revert Hin. eapply stops_no_exit; [|exact H]. by apply transit_plan_no_exit.
  - revert Hin. eapply goes_no_exit; [|exact H]. by apply terminate_plan_no_exit.
  - revert Hin. eapply stops_no_exit; [|exact H]. by apply terminate_plan_no_exit.
Qed.
Lemma falling_in k ks : falling k = false → Forall (λ k, falling k = true) ks → k ∉ ks.
Proof. intros Hk H Hin. rewrite Forall_forall in H. specialize (H k Hin). congruence. Qed.
Lemma called_no k ks y : called ks y → is_throw k = false → falling k = false → k ∉ ks.
Proof.
  intros H Hk Hk'. destruct H as [ks H|ks y H].
  - by apply falling_in, calls_falling.
  - intros [Hin|Hin%elem_of_list_singleton]%elem_of_app; [|by subst].
    revert Hin. by apply falling_in, calls_falling.
Qed.
Lemma turn_no_exit t e x ks o p c : turn ch U t false e x ks o → OExit p c ∉ ks.
Proof.
  destruct 1; try (by intros ?%elem_of_nil); try by eapply effect_no_exit.
  - intros [?|Hin]%elem_of_cons; [done|]. revert Hin. by eapply called_no.
  - rewrite elem_of_cons, elem_of_app. intros [?|[Hin|Hin]]; [done| |].
    + revert Hin. by apply falling_in, calls_falling.
    + revert Hin. by eapply effect_no_exit.
Qed.
Lemma search_no_exit t e x ks o p c : search ch U t false e x ks o → OExit p c ∉ ks.
Proof.
  induction 1 as [x ks r Ht|x ks y Ht|x ks Ht|x ks z ks' o Ht _ _ _ IH];
    pose proof (turn_no_exit _ _ _ _ _ p c Ht); rewrite ?elem_of_cons, ?elem_of_app, ?elem_of_cons, ?elem_of_nil; naive_solver.
Qed.

(** ** Searches *)
Lemma search_last t fe e x ks r : search ch U t fe e x ks (Done r) → ∃ ks' p c, ks = ks' ++ [OResult p c r].
Proof.
  intros Hs. remember (Done r) as o eqn:Eo in Hs. induction Hs as [x ks r' Ht Hr|x ks y Ht|x ks Ht Hp|x ks z ks' o Ht Hp Hz Hs IH]; try done.
  - injection Eo as ->. exists (OVisit x.2 x.1 e :: ks), x.2, x.1. done.
  - injection Eo as <-. exists (OVisit x.2 x.1 e :: ks), x.2, x.1. done.
  - destruct (IH Eo) as (k & p & c & ->). exists (OVisit x.2 x.1 e :: ks ++ OResult x.2 x.1 RForward :: k), p, c.
    simpl. by rewrite <-app_assoc.
Qed.
Lemma search_head t fe e x ks o : search ch U t fe e x ks o → ∃ ks', ks = OVisit x.2 x.1 e :: ks'.
Proof. inversion 1; eauto. Qed.
Definition is_visit (k : okind) : bool := match k with OVisit _ _ _ => true | _ => false end.
Lemma effect_plain t fe e x d ks o : effect ch t fe e x d ks o → Forall (λ k, is_visit k = false) ks.
Proof.
  assert (∀ ks, Forall (λ k, dull k = true) ks → Forall (λ k, is_visit k = false) ks) as Hd.
  { intros ks0 H. eapply Forall_impl; [exact H|]. by intros []. }
  destruct 1; try (by repeat constructor); (constructor; [done|]); apply Hd;
    first [by eapply goes_dull|by eapply stops_dull].
Qed.
Lemma turn_plain t fe e x ks o : turn ch U t fe e x ks o → Forall (λ k, is_visit k = false) ks.
Proof.
  assert (∀ ks, Forall (λ k, dull k = true) ks → Forall (λ k, is_visit k = false) ks) as Hd.
  { intros ks0 H. eapply Forall_impl; [exact H|]. by intros []. }
  destruct 1; try (by repeat constructor); try (by eapply effect_plain).
  - constructor; [done|]. apply Hd. by eapply called_dull.
  - constructor; [done|]. apply Forall_app. split; [by apply Hd, calls_dull|by eapply effect_plain].
Qed.
Lemma search_visits t fe e x ks o q c e' : search ch U t fe e x ks o → OVisit q c e' ∈ ks → e' = e ∧ within ch c x.1.
Proof.
  assert (∀ ks, Forall (λ k, is_visit k = false) ks → OVisit q c e' ∉ ks) as Hno.
  { intros ks0 H Hin. rewrite Forall_forall in H. by specialize (H _ Hin). }
  induction 1 as [x ks r Ht|x ks y Ht|x ks Ht|x ks z ks' o Ht Hp Hz _ IH];
    pose proof (Hno _ (turn_plain _ _ _ _ _ _ Ht)); intros [[= -> -> ->]|Hin]%elem_of_cons;
    try (split; [done|by left]); try done; apply elem_of_app in Hin as [Hin|Hin]; try done;
    apply elem_of_cons in Hin as [?|Hin]; try done; try (by apply elem_of_nil in Hin).
  destruct (IH Hin) as [-> Hw]. split; [done|]. eapply within_trans; [exact Hw|]. right. rewrite <-Hp. constructor.
Qed.
Lemma leaf_visits_app ks ks' : leaf_visits ch (ks ++ ks') = leaf_visits ch ks ++ leaf_visits ch ks'.
Proof. apply omap_app. Qed.
Lemma leaf_visits_plain ks : Forall (λ k, is_visit k = false) ks → leaf_visits ch ks = [].
Proof. induction 1 as [|k ks Hk _ IH]; [done|]. by destruct k. Qed.
Lemma parent_not_leaf c q : parent ch c = Some q → is_leaf ch q = false.
Proof.
  intros Hp. apply bool_decide_eq_false. pose proof (pos_lt ch Hwf c q Hp). lia.
Qed.

Lemma search_leaf t fe e x ks o : search ch U t fe e x ks o → is_leaf ch x.1 = true → leaf_visits ch ks = [x].
Proof.
  assert (∀ x ks o, search ch U t fe e x ks o → ∀ ks', ks = OVisit x.2 x.1 e :: ks' → leaf_visits ch ks' = []) as Hgo.
  { intros x' ks1 o' H. induction H as [x0 ks0 r Ht|x0 ks0 y Ht|x0 ks0 Ht|x0 ks0 z ks' o0 Ht Hp Hz Hs IH]; intros ks2 [= <-];
      rewrite ?leaf_visits_app, (leaf_visits_plain _ (turn_plain _ _ _ _ _ _ Ht)); try done.
    destruct (search_head _ _ _ _ _ _ Hs) as [ks3 ->]. cbn. rewrite (parent_not_leaf _ _ Hp). by apply IH. }
  intros Hs Hl. destruct (search_head _ _ _ _ _ _ Hs) as [ks' ->]. cbn. rewrite Hl.
  fold (leaf_visits ch ks'). rewrite (Hgo _ _ _ Hs _ eq_refl). by destruct x.
Qed.

(** ** What follows an exception *)
(** The allocator was just asked, in vain, for memory to defer the event that was left before. *)
Definition undeferred (t : list obs) : Prop := ∃ t0 e, t = t0 ++ under None [ODone; ORefused (ADefer e)].
(** Destruction goes on until the exception is caught, or, for an exception thrown by unconsumed_event(), the
    event is left.  An exception thrown while an exception event is handled ends that.  Nothing follows an exception
    thrown because an event could not be deferred. *)
Definition fate (t : list obs) (y : exn) (T : list obs) : Prop :=
  (undeferred t ∧ excepting t = false) ∨ ∃ ks m T', T = ks ++ m :: T' ∧ Forall (λ o, falling (ob o) = true) ks ∧
    match ob m with
    | OCatch y' => excepting t = false ∧ y' = y
    | OUnhandled => excepting t = true
    | ODone => excepting t = false ∧ ks = [] ∧
        ∃ t0 e kc, t = t0 ++ under (Some e) (OUnconsumed e :: kc) ∧ calls kc
    | _ => False
    end.
(** An exception that is not handled: the machine is cleared. *)
Definition ufate (T : list obs) : Prop :=
  ∃ ks m T', T = ks ++ m :: T' ∧ Forall (λ o, falling (ob o) = true) ks ∧ ob m = OReset.
(** A caught exception was thrown; an exception event follows exactly if the translator knows the exception
    and a state is active. *)
Definition cfate (t : list obs) (y : exn) (T : list obs) : Prop :=
  (∃ t0 b ks, t = t0 ++ Obs b (OThrow y) :: ks ∧ Forall (λ o, falling (ob o) = true) ks) ∧
  excepting t = false ∧
  ((∃ xe p T', u_translate U y = Some xe ∧ (∃ x, lives t x) ∧ T = Obs (Some xe) (OHandle p xe) :: T') ∨
   (u_translate U y = None ∨ (∀ x, ¬ lives t x)) ∧ ufate T).
(** An exception event: one search, starting at [p]; it is handled if and only if a reaction discards it
    and the machine was stable or something moved. *)
Definition hfate (t : list obs) (p : nat) (xe : event) (T : list obs) : Prop :=
  ∃ c ks b m T', T = under (Some xe) (OVisit p c xe :: ks) ++ Obs b m :: T' ∧ (m = OHandled ∨ m = OUnhandled) ∧
    lives t (c, p) ∧ Forall (λ k, still k = true ∧ is_exit k = false) ks ∧
    (∀ q c' e', OVisit q c' e' ∈ ks → e' = xe ∧ within ch c' c) ∧
    (in_state t → last (leaf_visits ch (map ob t)) = Some (c, p) ∧ complete ch t) ∧
    (¬ in_state t → complete_but ch t (eq (c, p)) ∧
      (md_disp (mode_of t) = None ∨ ch_relax ch = None → ∃ k, without_inner ch t (c, p) k) ∧
      (md_disp (mode_of t) ≠ None → ch_relax ch = None → ∃ t0, moving_from t0 t ∧ outermost_unstable ch t0 t (c, p))) ∧
    (m = OHandled ↔ (∃ q c', last ks = Some (OResult q c' RDiscard)) ∧ (in_state t ∨ moved ks)) ∧
    (m = OHandled → nothrow ks ∧ complete ch (t ++ under (Some xe) (OHandle p xe :: OVisit p c xe :: ks))).
Definition after (t : list obs) (o : obs) (T : list obs) : Prop :=
  match ob o with
  | OThrow y => fate t y T
  | OCatch y => cfate t y T
  | OHandle p xe => hfate t p xe T
  | OUnhandled => ufate T
  | OHandled => md_disp (mode_of t) ≠ None → ∃ T', T = Obs None ODone :: T'
  | _ => True
  end.
Notation everyx := (everywhere after).

Lemma after_mono t o T T' : after t o T → after t o (T ++ T').
Proof.
  assert (∀ T, ufate T → ufate (T ++ T')) as Hu.
  { intros T0 (ks & m & T1 & -> & H). exists ks, m, (T1 ++ T'). split; [by rewrite <-app_assoc|done]. }
  unfold after. destruct (ob o); try done.
  - intros [?|(ks & m & T0 & -> & H)]; [by left|right]. exists ks, m, (T0 ++ T'). split; [by rewrite <-app_assoc|done].
  - intros (H1 & H2 & H3). split_and!; [done|done|]. destruct H3 as [(xe & p & T0 & H3 & H4 & ->)|[H3 H4]]; [left|right; auto].
    by exists xe, p, (T0 ++ T').
  - intros (c & ks & b & m & T0 & -> & H). exists c, ks, b, m, (T0 ++ T'). split; [by rewrite <-app_assoc|done].
  - intros H Hm. destruct (H Hm) as (T0 & ->). by exists (T0 ++ T').
  - apply Hu.
Qed.
Lemma everyx_app t T T' : everyx t T → everyx (t ++ T) T' → everyx t (T ++ T').
Proof. apply everywhere_app. intros. by apply after_mono. Qed.
Definition plain (k : okind) : bool := match k with OThrow _ | OCatch _ | OHandle _ _ | OHandled | OUnhandled => false | _ => true end.
Lemma everyx_plain t b ks : Forall (λ k, plain k = true) ks → everyx t (under b ks).
Proof.
  intros H. revert t. induction H as [|k ks Hk _ IH]; intros t; [apply everywhere_nil|]. simpl. apply everywhere_cons; [|done].
  by destruct k.
Qed.
Lemma still_plain ks : Forall (λ k, still k = true) ks → nothrow ks → Forall (λ k, plain k = true) ks.
Proof. unfold nothrow. rewrite !Forall_forall. intros H1 H2 k Hk. specialize (H1 k Hk). specialize (H2 k Hk). by destruct k. Qed.
Lemma everyx_thrown t b k1 y k2 K : Forall (λ k, still k = true) (k1 ++ OThrow y :: k2) → nothrow k1 →
  Forall (λ k, falling k = true) k2 →
  fate (t ++ under b k1) y (under b k2 ++ K) →
  everyx (t ++ under b (k1 ++ OThrow y :: k2)) K → everyx t (under b (k1 ++ OThrow y :: k2) ++ K).
Proof.
  intros Hs H1 H2 Hf HK. apply Forall_app in Hs as [Hs1 Hs2]. apply Forall_cons in Hs2 as [_ Hs2].
  rewrite under_app_ in *. cbn [under map] in *. fold (under b k2) in *. rewrite <-app_assoc. apply everyx_app.
  { apply everyx_plain. by apply still_plain. }
  cbn. apply everywhere_cons; [done|]. apply everyx_app.
  { apply everyx_plain. apply still_plain; [done|by apply falling_nothrow]. }
  by rewrite <-!app_assoc in *.
Qed.

Lemma in_state_app t b ks : Forall (λ k, still k = true) ks → mode_of t ≠ idle →
  in_state (t ++ under b ks) ↔ ∃ p c e, last_mark (map ob t ++ ks) = Some (OVisit p c e).
Proof.
  intros H Hm. unfold in_state. rewrite mode_still by done. rewrite map_app, map_ob_under. naive_solver.
Qed.
Lemma in_state_search t b e ks k1 y k2 : ks = k1 ++ OThrow y :: k2 → Forall (λ k, still k = true) ks → Forall (λ k, falling k = true) k2 →
  mode_of t ≠ idle →
  ((moved ks ∧ ∃ k, last_mark k1 = Some k ∧ moves k = true) ∨ (¬ moved ks ∧ visiting e k1)) →
  (in_state (t ++ under b ks) ↔ ¬ moved ks).
Proof.
  intros -> Hs Hf Hm H. rewrite in_state_app by done. rewrite !last_mark_app.
  rewrite (last_mark_dull (OThrow y :: k2)) by (constructor; [done|by apply falling_dull]).
  destruct H as [(H1 & k & -> & Hk)|(H1 & p & c & ->)].
  - split; [|done]. intros (p & c & e' & [= ->]). done.
  - split; [done|eauto].
Qed.

(** *** Where transitions start *)
Lemma outermost_same t0 t1 t x : same_objs t0 t1 → outermost_unstable ch t0 t x → outermost_unstable ch t1 t x.
Proof.
  intros [Hs _].
  assert (∀ z k, without_inner ch t0 z k ↔ without_inner ch t1 z k) as H.
  { intros z k. unfold without_inner. rewrite Hs. by setoid_rewrite Hs. }
  unfold outermost_unstable, unstable_since. intros [H1 H2]. split.
  - destruct H1 as (k & ? & ?). exists k. by rewrite <-H.
  - intros z (k & ? & ?). apply H2. exists k. by rewrite H.
Qed.
Lemma moving_from_app t0 t b y : moving_from t0 t → moving_from t0 (t ++ under b [OCatch y]).
Proof.
  intros (b' & k & T & -> & H1 & H2). exists b', k, (T ++ under b [OCatch y]).
  rewrite <-app_assoc. split_and!; [done|done|]. apply Forall_app. split; [done|by repeat constructor].
Qed.
Definition moves_once (ks : list okind) : Prop :=
  ∃ k1 k k2, ks = k1 ++ k :: k2 ∧ moves k = true ∧ Forall (λ k, is_life k = false) k1 ∧ Forall (λ k, moves k = false) k2.
Lemma moves_once_pre ks0 ks : Forall (λ k, is_life k = false) ks0 → moves_once ks → moves_once (ks0 ++ ks).
Proof.
  intros H0 (k1 & k & k2 & -> & H1 & H2 & H3). exists (ks0 ++ k1), k, k2. rewrite <-app_assoc.
  split_and!; [done..| |done]. by apply Forall_app.
Qed.
Lemma moves_once_post ks ks0 : Forall (λ k, moves k = false) ks0 → moves_once ks → moves_once (ks ++ ks0).
Proof.
  intros H0 (k1 & k & k2 & -> & H1 & H2 & H3). exists k1, k, (k2 ++ ks0). rewrite <-app_assoc.
  split_and!; [done..|]. by apply Forall_app.
Qed.
Lemma effect_moves t fe e x d ks o : effect ch t fe e x d ks o → moved ks → moves_once ks.
Proof.
  assert (∀ k ks, moves k = true → Forall (λ k, dull k = true) ks → moves_once (k :: ks)) as Hgo.
  { intros k ks0 Hk H. exists [], k, ks0. split_and!; [done..|constructor|]. eapply Forall_impl; [exact H|]. by intros []. }
  intros H Hm. destruct H as [| | |y|d act ks H|d act y ks H|ks H|y ks H].
  - by destruct Hm as (k & ?%elem_of_nil & _).
  - by destruct Hm as (k & ?%elem_of_nil & _).
  - by destruct Hm as (k & ?%elem_of_nil & _).
  - destruct Hm as (k & ->%elem_of_list_singleton & ?). done.
  - apply Hgo; [done|]. apply quiets_dull, H.
  - apply Hgo; [done|]. by eapply stops_dull.
  - apply Hgo; [done|]. apply quiets_dull, H.
  - apply Hgo; [done|]. by eapply stops_dull.
Qed.
Lemma turn_moves t fe e x ks o : turn ch U t fe e x ks o → moved ks → moves_once ks.
Proof.
  intros H Hm. destruct H as [|? ? ? ? ? ? _ H|? ? ? ? _ H|? ? ? ? _ H| |? ? ? ? ? _ Hc|? ? ? ? ? ? ? _ Hc H];
    try (by eapply effect_moves); try (by destruct Hm as (k & ?%elem_of_nil & _)).
  - exfalso. revert Hm. apply dull_not_moved. constructor; [done|].
    destruct Hc; [by apply calls_dull|]. apply Forall_app. split; [by apply calls_dull|by repeat constructor].
  - rewrite moved_cons, moved_app in Hm by done. rewrite app_comm_cons. apply moves_once_pre.
    + constructor; [done|]. eapply Forall_impl; [exact Hc|]. by intros k [].
    + destruct Hm as [Hm|Hm]; [|by eapply effect_moves]. exfalso. revert Hm. apply dull_not_moved. by apply calls_dull.
Qed.
Lemma turn_forward t fe e x ks : turn ch U t fe e x ks (Done RForward) → Forall (λ k, is_life k = false ∧ moves k = false) ks.
Proof.
  intros H. assert (∀ d ks, effect ch t fe e x d ks (Done RForward) → ks = []) as He by (by inversion 1).
  inversion H as [|? ? ? ? ? ? _ H'|? ? ? ? _ H'|? ? ? ? _ H'| |? ? ? ? y _ Hc|? ? ? ? ? ? ? _ Hc H']; subst;
    try (by constructor); try (by rewrite (He _ _ H')).
  - by destruct y.
  - rewrite (He _ _ H'), app_nil_r. constructor; [done|]. eapply Forall_impl; [exact Hc|]. by intros [] [].
Qed.
Lemma search_moves t fe e x ks o : search ch U t fe e x ks o → moved ks → moves_once ks.
Proof.
  induction 1 as [x ks r Ht _|x ks y Ht|x ks Ht _|x ks z ks' o Ht _ _ _ IH]; intros Hm; rewrite moved_cons in Hm by done;
    apply (moves_once_pre [_]); try (by repeat constructor).
  - apply moves_once_post; [by repeat constructor|]. rewrite moved_app in Hm. eapply turn_moves; [done|].
    destruct Hm as [?|(k & ->%elem_of_list_singleton & ?)]; done.
  - by eapply turn_moves.
  - apply moves_once_post; [by repeat constructor|]. rewrite moved_app in Hm. eapply turn_moves; [done|].
    destruct Hm as [?|(k & ->%elem_of_list_singleton & ?)]; done.
  - apply turn_forward in Ht. apply moves_once_pre; [eapply Forall_impl; [exact Ht|]; by intros k []|].
    apply (moves_once_pre [_]); [by repeat constructor|]. apply IH. rewrite moved_app, moved_cons in Hm by done.
    destruct Hm as [Hm|]; [|done]. exfalso. revert Hm. apply not_moved. eapply Forall_impl; [exact Ht|]. by intros k [].
Qed.

(** *** Exception handling *)
(** [handling] with the trace positions: [ob t] ends with the search that threw. *)
Lemma everyx_handled t0 t b cur st y T o K :
  mode_of t = Mode b None → (in_state t ↔ st) → (∀ x, cur = Some x → last (leaf_visits ch (map ob t)) = Some x) →
  (¬ st → b ≠ None → ∃ t1, moving_from t1 t ∧ same_objs t0 t1) →
  handled ch U t0 t b cur st y T o → (∀ y', o = Threw y' → ufate K) →
  (∀ r, o = Done r → r ≠ RForward → b ≠ None → ∃ K', K = Obs None ODone :: K') →
  everyx (t ++ T) K → everyx t (T ++ K).
Proof.
  intros Hm Hst Hcur Hmf Hh HK Hdn HK'.
  assert (∀ xe x ks o' k, lives t x → starts_at ch t0 t b cur st x → search ch U t false xe x ks o' →
    (k = OHandled ∧ (o' = Done RDiscard ∧ o = Done RDiscard) ∧ (st ∨ moved ks) ∧ complete ch (t ++ under (Some xe) (OHandle x.2 xe :: ks))) ∨
    (k = OUnhandled ∧ (∀ r, o' = Done r → r ≠ RDiscard ∨ ¬ st ∧ ¬ moved ks) ∧ ufate K) →
    T = under (Some xe) (OHandle x.2 xe :: ks) ++ under b [k] → everyx t (T ++ K)) as Hgo.
  { intros xe x ks o' k Hl [Hs1 Hs2] Hse Hk ->.
    destruct (search_head _ _ _ _ _ _ Hse) as [ks' E].
    assert (mode_of (t ++ [Obs (Some xe) (OHandle x.2 xe)]) = Mode b (Some xe)) as Hm1 by by rewrite mode_snoc, Hm.
    pose proof (search_still _ _ _ _ _ _ _ _ Hse) as Hss.
    assert (moved ks ↔ moved ks') as Hmv by (rewrite E; by apply moved_cons).
    rewrite <-app_assoc. simpl. apply everywhere_cons.
    - unfold after. cbn [ob]. exists x.1, ks', b, k, K. rewrite E in *.
      apply Forall_cons in Hss as [_ Hss].
      destruct x as [c p]. cbn [fst snd] in *. split_and!.
      + done.
      + destruct Hk as [[-> _]|[-> _]]; auto.
      + done.
      + rewrite Forall_forall in *. intros k' Hk'. split; [by apply Hss|]. destruct k'; try done.
        exfalso. eapply search_no_exit; [exact Hse|]. by right.
      + intros q c' e' Hin. destruct (search_visits _ _ _ _ _ _ q c' e' Hse); [by right|done].
      + intros Hi. apply Hst in Hi. destruct (Hs1 Hi) as [H1 H2]. split; [by apply Hcur|done].
      + intros Hi. destruct Hs2 as (_ & Hc & Hou); [tauto|]. rewrite Hm. cbn [md_disp]. split_and!; [done| |].
        * intros Hb. by destruct (Hou Hb) as [(k0 & Hk0 & _) _]; eauto.
        * intros Hb Hrel. destruct Hmf as (t1 & Ht1 & Hso); [tauto|done|]. exists t1. split; [done|].
          eapply outermost_same; [done|]. apply Hou. by right.
      + destruct Hk as [(-> & [-> _] & H1 & _)|(-> & H1 & _)].
        * split; [|done]. intros _. split; [|tauto].
          destruct (search_last _ _ _ _ _ _ Hse) as (k0 & q & c' & E'). exists q, c'.
          destruct k0 as [|? k0]; [done|]. injection E' as <- ->. by rewrite last_snoc.
        * split; [done|]. intros [(q & c' & Hq) H2]. exfalso. destruct o' as [r|y'].
          -- destruct (search_last _ _ _ _ _ _ Hse) as (k0 & q' & c'' & E').
             destruct k0 as [|? k0]; [done|]. injection E' as <- ->. rewrite last_snoc in Hq. injection Hq as -> -> ->.
             destruct (H1 _ eq_refl) as [?|[??]]; [done|]. tauto.
          -- destruct (search_thrown _ _ _ _ _ _ Hse) as (k1 & k2 & E' & _ & Hf & _).
             destruct k1 as [|? k1]; [done|]. injection E' as <- ->. rewrite last_app in Hq.
             assert (last (OThrow y' :: k2) ≠ Some (OResult q c' RDiscard)) as Hn.
             { intros [E0|E0%elem_of_list_In]%last_Some_elem_of%elem_of_cons.
               - done.
               - apply elem_of_list_In in E0. by apply (falling_in (OResult q c' RDiscard) k2). }
             destruct (last (OThrow y' :: k2)) eqn:El; [congruence|]. by apply last_None in El.
      + destruct Hk as [(-> & [-> _] & _ & H1)|(-> & _ & _)]; [|done]. intros _. split; [|done].
        apply search_nothrow in Hse. by apply Forall_cons in Hse as [].
    - destruct Hk as [(-> & [-> Eo] & _ & _)|(-> & H1 & Hu)].
        change (map (Obs (Some xe)) ks) with (under (Some xe) ks). change (Obs b OHandled :: K) with (under b [OHandled] ++ K).
        apply everyx_app; [apply everyx_plain, still_plain; [done|by eapply search_nothrow]|].
        simpl. apply everywhere_cons; [|by rewrite <-!app_assoc in *]. unfold after. cbn [ob].
        rewrite mode_still by done. rewrite Hm1. cbn. by eapply Hdn.
      + assert (everyx ((t ++ [Obs (Some xe) (OHandle x.2 xe)]) ++ under (Some xe) ks) (Obs b OUnhandled :: K)) as HU1.
        { apply everywhere_cons; [done|]. rewrite <-!app_assoc. exact HK'. }
        change (map (Obs (Some xe)) ks) with (under (Some xe) ks). destruct o' as [r|y'].
        * apply everyx_app; [|done]. apply everyx_plain, still_plain; [done|by eapply search_nothrow].
        * destruct (search_thrown _ _ _ _ _ _ Hse) as (k1 & k2 & -> & Hn & Hf & _).
          apply everyx_thrown; try done. right. exists (under (Some xe) k2), (Obs b OUnhandled), K.
          split; [done|]. split; [by apply Forall_map|]. cbn [ob]. unfold excepting.
          rewrite mode_still by (by apply Forall_app in Hss as []). by rewrite Hm1. }
  destruct Hh as [_|xe x ks H0 Hl Hsa Hs Hm' Hc|xe x ks r _ Hl Hsa Hs Hr|xe x ks y' _ Hl Hsa Hs].
  - by rewrite app_nil_r in HK'.
  - eapply Hgo; [done|done|done| |done]. left. done.
  - eapply Hgo; [done|done|done| |done]. right. split_and!; [done|by intros ? [= <-]|by eapply HK].
  - eapply Hgo; [done|done|done| |done]. right. split_and!; [done|done|by eapply HK].
Qed.

Lemma lives_catch t b y x : lives (t ++ under b [OCatch y]) x ↔ lives t x.
Proof. by apply lives_snoc. Qed.
Lemma everyx_threw t0 t b ks k1 k2 y cur st T o K :
  ks = k1 ++ OThrow y :: k2 → nothrow k1 → Forall (λ k, falling k = true) k2 → Forall (λ k, still k = true) ks →
  mode_of t = Mode b None → (in_state (t ++ under b ks) ↔ st) →
  (∀ x, cur = Some x → last (leaf_visits ch (map ob (t ++ under b ks))) = Some x) →
  (¬ st → b ≠ None → ∃ t1, moving_from t1 (t ++ under b ks) ∧ same_objs t0 t1) →
  handling ch U t0 (t ++ under b ks) b cur st y T o → (∀ y', o = Threw y' → ufate K) →
  (∀ r, o = Done r → r ≠ RForward → b ≠ None → ∃ K', K = Obs None ODone :: K') →
  everyx ((t ++ under b ks) ++ T) K → everyx t (under b ks ++ T ++ K).
Proof.
  intros E Hn Hf Hs Hm Hst Hcur Hmf [T' o' Hh] HK Hdn HK'.
  assert (mode_of (t ++ under b ks) = Mode b None) as Hm' by by rewrite mode_still.
  assert (mode_of ((t ++ under b ks) ++ under b [OCatch y]) = Mode b None) as Hm2.
  { rewrite mode_still; [done|by repeat constructor]. }
  assert (everyx ((t ++ under b ks) ++ under b [OCatch y]) (T' ++ K)) as Hrest.
  { eapply (everyx_handled _ _ b cur st y T' o'); [done| | | |done|done|done|by rewrite <-!app_assoc in *].
    - rewrite <-Hst. unfold in_state. rewrite Hm', Hm2. rewrite (map_app _ (t ++ under b ks)), last_mark_app. done.
    - intros x Hx. rewrite map_app, leaf_visits_app. rewrite (leaf_visits_plain (map ob (under b [OCatch y]))); [|by repeat constructor].
      rewrite app_nil_r. by apply Hcur.
    - intros H1 H2. destruct (Hmf H1 H2) as (t1 & H3 & H4). exists t1. split; [|done]. by apply moving_from_app. }
  subst ks. apply everyx_thrown; try done.
  - assert (excepting (t ++ under b k1) = false) as Hx.
    { apply Forall_app in Hs as [Hs _]. unfold excepting. rewrite mode_still by done. by rewrite Hm. }
    right. exists (under b k2), (Obs b (OCatch y)), (T' ++ K). split; [by rewrite <-app_assoc|]. split; [by apply Forall_map|done].
  - rewrite <-app_assoc. apply everywhere_cons; [|exact Hrest]. unfold after. cbn [ob]. split_and!.
    + exists (t ++ under b k1), b, (under b k2). split; [by rewrite under_app_, app_assoc|by apply Forall_map].
    + unfold excepting. by rewrite Hm'.
    + destruct Hh as [H0|xe z ks H0 Hl|xe z ks r H0 Hl|xe z ks y' H0 Hl];
        [|left; eexists xe, _, _; (split; [done|]); apply lives_catch in Hl; (split; [by eexists|simpl; reflexivity])..].
      right. split; [|by eapply HK]. destruct H0 as [H0|H0]; [by left|right]. intros x Hx. apply (H0 x). by apply lives_catch.
Qed.

Lemma everyx_dispatch e t ls T o K : mode_of t = Mode (Some e) None → Forall (λ c, is_leaf ch c = true) ls →
  dispatch ch U e t ls T o → (∀ y', o = Threw y' → ufate K) →
  (∀ r, o = Done r → r ≠ RForward → ∃ K', K = Obs None ODone :: K') → everyx (t ++ T) K → everyx t (T ++ K).
Proof.
  intros Hm Hls Hd. induction Hd as [t|t x ls ks T o Hl Hs Hd IH|t x ls ks r Hl Hs Hr|t x ls ks y T o Hl Hs Hh]; intros HK Hdn HK'.
  - by rewrite app_nil_r in HK'.
  - rewrite <-app_assoc. apply everyx_app.
    + apply everyx_plain, still_plain; [by eapply search_still|by eapply search_nothrow].
    + apply Forall_cons in Hls as [_ Hls]. apply IH; [|done|done|done|by rewrite <-app_assoc].
      rewrite mode_still; [done|]. by eapply search_still.
  - apply everyx_app; [|done]. apply everyx_plain, still_plain; [by eapply search_still|by eapply search_nothrow].
  - destruct (search_thrown _ _ _ _ _ _ Hs) as (k1 & k2 & E & Hn & Hf & Hst). rewrite <-app_assoc.
    pose proof (search_still _ _ _ _ _ _ _ _ Hs) as Hss. apply Forall_cons in Hls as [Hx _].
    eapply everyx_threw; [exact E|done|done|done|done| | | |exact Hh|done|by intros; eapply Hdn|by rewrite <-app_assoc].
    + eapply in_state_search; try done. by rewrite Hm.
    + intros x' [= <-]. rewrite map_app, map_ob_under, leaf_visits_app, (search_leaf _ _ _ _ _ _ Hs Hx). apply last_snoc.
    + intros Hmn _. assert (moved ks) as Hmv by (destruct Hst as [[? _]|[? _]]; tauto).
      destruct (search_moves _ _ _ _ _ _ Hs Hmv) as (k3 & k & k4 & E' & H1 & H2 & H3).
      exists (t ++ under (Some e) k3). split; [|apply same_objs_app; by apply Forall_map].
      exists (Some e), k, (under (Some e) k4). rewrite E', under_app_, <-app_assoc. split_and!; [done|done|by apply Forall_map].
Qed.

Lemma ending_falling t b ks : ending ch t false ks → ufate (under b ks).
Proof.
  intros (ks' & -> & Hq & L & _ & _ & EL). exists (under b ks'), (Obs b OReset), []. split; [apply under_app_|]. split; [|done].
  apply Forall_map. cbn. rewrite Forall_forall in *. intros k Hk. specialize (Hq k Hk).
  destruct (is_life k) eqn:Hl; [|by destruct k]. assert (k ∈ lifes ks') as Hin by by apply elem_lifes.
  rewrite EL in Hin. apply exits_elem in Hin as (y & _ & [->|[? _]]); done.
Qed.
Lemma ending_plain t fe ks : ending ch t fe ks → Forall (λ k, plain k = true) ks.
Proof.
  intros (ks' & -> & Hq & _). apply Forall_app. split; [|by repeat constructor]. eapply Forall_impl; [exact Hq|]. by intros [].
Qed.
Lemma ufate_mono T T' : ufate T → ufate (T ++ T').
Proof. intros (ks & m & T0 & -> & H). exists ks, m, (T0 ++ T'). split; [by rewrite <-app_assoc|done]. Qed.

Lemma everyx_one_event e t T o : mode_of t = idle → one_event ch U t e T o → everyx t T.
Proof.
  intros Hm H.
  assert (∀ ls T1 o' K, innermost ch t ls → dispatch ch U e (t ++ under (Some e) [ODispatch e ls]) ls T1 o' →
    T = under (Some e) [ODispatch e ls] ++ T1 ++ K → (∀ y, o' = Threw y → ufate K) →
    (∀ r, o' = Done r → r ≠ RForward → ∃ K', K = Obs None ODone :: K') →
    (mode_of ((t ++ under (Some e) [ODispatch e ls]) ++ T1) = Mode (Some e) None →
     everyx ((t ++ under (Some e) [ODispatch e ls]) ++ T1) K) → everyx t T) as Hgo.
  { intros ls T1 o' K Hin Hd -> HK Hdn HK'.
    assert (mode_of (t ++ under (Some e) [ODispatch e ls]) = Mode (Some e) None) as Hm1.
    { exact (mode_snoc t (Obs (Some e) (ODispatch e ls))). }
    assert (Forall (λ c, is_leaf ch c = true) ls) as Hls.
    { apply Forall_forall. intros c Hc. by apply Hin in Hc as []. }
    apply everyx_app; [apply everyx_plain; by repeat constructor|]. eapply everyx_dispatch; try done.
    apply HK'. edestruct (every_dispatch ch U) as [_ H2]; [exact Hm1|exact Hls| |exact Hd|exact H2].
    intros x Hx. exists t, (Obs (Some e) (ODispatch e ls)). done. }
  destruct H as [ls T1 r Hin Hd _|ls T1 ks y Hin Hd Hca|ls T1 y ks Hin Hd Hen].
  - eapply Hgo; [done|done|done|done|by eauto|]. intros _. apply everyx_plain. by repeat constructor.
  - eapply Hgo; [done|done|done|done|by intros ? [= <-]|]. intros Hm2. destruct Hca as [ks Hc|ks y Hc].
    + apply everyx_app; [|apply everyx_plain; by repeat constructor]. apply everyx_plain.
      constructor; [done|]. eapply Forall_impl; [exact Hc|]. by intros [] [].
    + rewrite app_comm_cons. assert (Forall (λ k, still k = true) (OUnconsumed e :: ks)) as Hs.
      { constructor; [done|]. by apply dulls_still, calls_dull. }
      apply everyx_thrown; [apply Forall_app; split; [done|by repeat constructor]| |constructor| |apply everyx_plain; by repeat constructor].
      * constructor; [done|]. by apply calls_nothrow.
      * right. exists [], (Obs None ODone), []. split_and!; [done|constructor|]. cbn [ob]. split_and!; [|done|eauto].
        unfold excepting. rewrite mode_still by done. by rewrite Hm2.
  - eapply Hgo; [done|done|done| |done|].
    + intros _ _. eapply ufate_mono, ending_falling. done.
    + intros _. apply everyx_app; [|apply everyx_plain; by repeat constructor]. apply everyx_plain. by eapply ending_plain.
Qed.

Lemma everyx_idle t ks : Forall (λ k, dull k = true) ks → nothrow ks → everyx t (under None ks).
Proof. intros H1 H2. apply everyx_plain, still_plain; [by apply dulls_still|done]. Qed.
Lemma defers_nothrow e o : nothrow (defers e o).
Proof. destruct o as [[]|]; by repeat constructor. Qed.
Lemma one_event_last t e T r : one_event ch U t e T (Done r) → ∃ T0, T = T0 ++ under None [ODone].
Proof. intros H. inversion H; subst; rewrite ?app_assoc; eauto. Qed.
Lemma everyx_refused t e T y : mode_of (t ++ T) = idle → one_event ch U t e T (Done RDefer) →
  everyx (t ++ T) (under None (refused e y)).
Proof.
  intros Hm H. destruct (one_event_last _ _ _ _ H) as [T0 ->].
  change (refused e y) with ([ORefused (ADefer e)] ++ [OThrow y]). rewrite under_app_. apply everyx_app.
  { apply everyx_plain. by repeat constructor. }
  apply everywhere_cons; [|apply everywhere_nil]. left. split.
  - exists (t ++ T0), e. by rewrite <-!app_assoc.
  - unfold excepting. rewrite mode_still by (by repeat constructor). by rewrite Hm.
Qed.
Lemma everyx_event_loop n t T o : mode_of t = idle → event_loop ch U n t T o → everyx t T.
Proof.
  intros Hm H. induction H as [n t|t|n t e T r T' o H1 _ IH|n t e T y H1|n t e T y H1].
  - apply everywhere_nil.
  - apply everywhere_nil.
  - assert (mode_of (t ++ under None [OTake e]) = idle) as Hm1 by (rewrite mode_still; [done|by repeat constructor]).
    apply everyx_app; [apply everyx_idle; by repeat constructor|].
    apply everyx_app; [by eapply everyx_one_event|].
    apply everyx_app; [apply everyx_idle; [apply defers_dull|apply defers_nothrow]|].
    rewrite <-!app_assoc. apply IH. rewrite !app_assoc, mode_still by apply dulls_still, defers_dull.
    by eapply every_one_event.
  - assert (mode_of (t ++ under None [OTake e]) = idle) as Hm1 by (rewrite mode_still; [done|by repeat constructor]).
    apply everyx_app; [apply everyx_idle; by repeat constructor|]. by eapply everyx_one_event.
  - assert (mode_of (t ++ under None [OTake e]) = idle) as Hm1 by (rewrite mode_still; [done|by repeat constructor]).
    apply everyx_app; [apply everyx_idle; by repeat constructor|].
    apply everyx_app; [by eapply everyx_one_event|]. eapply everyx_refused; [|done]. by eapply every_one_event.
Qed.
Lemma everyx_processing n t e T o : mode_of t = idle → processing ch U n t e T o → everyx t T.
Proof.
  intros Hm H.
  assert (mode_of (t ++ under None [OProcess e]) = idle) as Hm1 by (rewrite mode_still; [done|by repeat constructor]).
  destruct H as [T r T' o H1 Hl|T y H1|T y H1].
  - apply everyx_app; [apply everyx_idle; by repeat constructor|].
    apply everyx_app; [by eapply everyx_one_event|].
    apply everyx_app; [apply everyx_idle; [apply defers_dull|apply defers_nothrow]|].
    rewrite <-!app_assoc. eapply everyx_event_loop; [|done]. rewrite !app_assoc, mode_still by apply dulls_still, defers_dull.
    by eapply every_one_event.
  - apply everyx_app; [apply everyx_idle; by repeat constructor|]. by eapply everyx_one_event.
  - apply everyx_app; [apply everyx_idle; by repeat constructor|].
    apply everyx_app; [by eapply everyx_one_event|]. eapply everyx_refused; [|done]. by eapply every_one_event.
Qed.

Lemma everyx_translated t (P : list okind → outcome → Prop) T o : mode_of t = idle →
  (∀ ks r, P ks (Done r) → Forall (λ k, plain k = true) ks) → (∀ ks y, P ks (Threw y) → ∃ Q, stops ch Q y ks) →
  translated ch U t P T o → everyx t T.
Proof.
  intros Hm HP HP' H.
  assert (∀ ks y Th o' K, P ks (Threw y) → handling ch U t (t ++ under None ks) None None False y Th o' →
    (∀ y', o' = Threw y' → ufate K) → everyx ((t ++ under None ks) ++ Th) K → everyx t (under None ks ++ Th ++ K)) as Hgo.
  { intros ks y Th o' K Hk Hh HK HK'. destruct (HP' _ _ Hk) as [Q HQ].
    pose proof (dulls_still _ (stops_dull _ _ _ _ HQ)) as Hs.
    destruct (stops_thrown _ _ _ _ HQ) as (k1 & k2 & E & H1 & H2).
    eapply (everyx_threw _ t None ks k1 k2 y None False); [exact E|by apply steady_nothrow|done|done|done| |by intros ? [=]|done|exact Hh|done|done|done].
    split; [|done]. intros [Hi _]. by rewrite mode_still in Hi. }
  destruct H as [ks r Hk|ks y T r Hk Hh|ks y T y' ks' Hk Hh Hen].
  - apply everyx_plain. by eapply HP.
  - rewrite <-(app_nil_r T). eapply Hgo; [done|done|done|]. apply everywhere_nil.
  - eapply Hgo; [done|done| |].
    + intros _ _. eapply ending_falling. done.
    + apply everyx_plain. by eapply ending_plain.
Qed.
Lemma everyx_terminating t T o : mode_of t = idle → terminating ch U t T o → everyx t T.
Proof.
  intros Hm H. eapply everyx_translated; [done| | |done].
  - intros ks r Hk. by eapply ending_plain.
  - intros ks y Hk. by eexists.
Qed.
Lemma everyx_starting t T o : mode_of t = idle → translated ch U t (starts ch t) T o → everyx t T.
Proof.
  intros Hm H. eapply everyx_translated; [done| | |done].
  - intros ks r [Hq _]. eapply Forall_impl; [exact Hq|]. by intros [].
  - intros ks y Hk. by eexists.
Qed.
Lemma everyx_story o t T r : mode_of t = idle → story ch U o t T r → everyx t T.
Proof.
  intros Hm H. destruct o as [n| |n e|e|c k|c k]; cbn [story] in H.
  - destruct H as [T y H|T T' y H H'|T T' T'' o H H' H''].
    + by eapply everyx_terminating.
    + apply everyx_app; [by eapply everyx_terminating|]. eapply everyx_starting; [by eapply every_terminating|done].
    + assert (mode_of (t ++ T) = idle) as Hm1 by by eapply every_terminating.
      assert (mode_of ((t ++ T) ++ T') = idle) as Hm2 by by eapply every_starting.
      apply everyx_app; [by eapply everyx_terminating|]. apply everyx_app; [by eapply everyx_starting|].
      eapply everyx_event_loop; [done|]. by rewrite <-app_assoc.
  - by eapply everyx_terminating.
  - by eapply everyx_processing.
  - destruct H as [-> _]. apply everyx_idle; by repeat constructor.
  - destruct H as [-> _]. apply everyx_idle; by repeat constructor.
  - destruct H as [-> _]. apply everyx_idle; by repeat constructor.
Qed.

(** ** The exception that leaves a call *)
Definition quiets (o : obs) : bool := match ob o with OThrow _ | OExit _ _ | OHandled => false | _ => true end.
(** [y] is the last exception thrown in [T]; no exit() follows, and it is not handled. *)
Definition last_thrown (y : exn) (T : list obs) : Prop :=
  ∃ T1 b T2, T = T1 ++ Obs b (OThrow y) :: T2 ∧ Forall (λ o, quiets o = true) T2.
Lemma last_thrown_app y T T' : last_thrown y T → Forall (λ o, quiets o = true) T' → last_thrown y (T ++ T').
Proof.
  intros (T1 & b & T2 & -> & H) H'. exists T1, b, (T2 ++ T'). split; [by rewrite <-app_assoc|]. by apply Forall_app.
Qed.
Lemma last_thrown_pre y T T' : last_thrown y T' → last_thrown y (T ++ T').
Proof. intros (T1 & b & T2 & -> & H). exists (T ++ T1), b, T2. split; [by rewrite <-app_assoc|done]. Qed.
Lemma last_thrown_under y b k1 k2 : Forall (λ k, falling k = true) k2 → last_thrown y (under b (k1 ++ OThrow y :: k2)).
Proof.
  intros H. exists (under b k1), b, (under b k2). split; [apply under_app_|]. apply Forall_map. eapply Forall_impl; [exact H|].
  by intros [].
Qed.
Lemma handled_throws t0 t b cur st y T y' T0 : handled ch U t0 t b cur st y T (Threw y') → last_thrown y T0 → last_thrown y' (T0 ++ T).
Proof.
  intros H H0. inversion H as [| |xe x ks r H1 Hl Hsa Hse Hr|xe x ks y0 H1 Hl Hsa Hse]; subst.
  - by rewrite app_nil_r.
  - apply last_thrown_app; [done|]. apply Forall_app. split; [|by repeat constructor]. apply Forall_map.
    constructor; [done|]. apply Forall_forall. intros k Hk. pose proof (search_nothrow _ _ _ _ _ _ Hse) as Hn.
    pose proof (search_still _ _ _ _ _ _ _ _ Hse) as Hst.
    unfold nothrow in Hn. rewrite Forall_forall in Hn, Hst. specialize (Hn k Hk). specialize (Hst k Hk). destruct k; try done.
    exfalso. by eapply search_no_exit.
  - apply last_thrown_pre. apply last_thrown_app; [|by repeat constructor].
    destruct (search_thrown _ _ _ _ _ _ Hse) as (k1 & k2 & -> & _ & Hf & _).
    change (OHandle x.2 xe :: k1 ++ OThrow y' :: k2) with ((OHandle x.2 xe :: k1) ++ OThrow y' :: k2).
    by apply last_thrown_under.
Qed.
Lemma handling_throws t0 t b cur st y T y' T0 : handling ch U t0 t b cur st y T (Threw y') → last_thrown y T0 → last_thrown y' (T0 ++ T).
Proof.
  intros H H0. inversion H as [T' o' Hh]; subst. rewrite app_assoc. eapply handled_throws; [exact Hh|].
  apply last_thrown_app; [done|by repeat constructor].
Qed.
Lemma dispatch_throws e t ls T y : dispatch ch U e t ls T (Threw y) → last_thrown y T.
Proof.
  intros H. remember (Threw y) as o eqn:Eo in H. induction H as [| t x ls ks T o _ _ _ IH| |t x ls ks y0 T o Hl Hs Hh]; try done.
  - apply last_thrown_pre. by apply IH.
  - subst o. eapply handling_throws; [exact Hh|]. destruct (search_thrown _ _ _ _ _ _ Hs) as (k1 & k2 & -> & _ & Hf & _).
    by apply last_thrown_under.
Qed.
Lemma ending_gone t b ks : ending ch t false ks → Forall (λ o, quiets o = true) (under b ks) ∧ ∀ x, ¬ lives (t ++ under b ks) x.
Proof.
  intros (ks' & -> & Hq & L & HL & _ & EL). split.
  - apply Forall_map. apply Forall_app. split; [|by repeat constructor]. rewrite Forall_forall in *. intros k Hk. specialize (Hq k Hk).
    destruct (is_life k) eqn:Hl; [|by destruct k]. assert (k ∈ lifes ks') as Hin by by apply elem_lifes.
    rewrite EL in Hin. apply exits_elem in Hin as (y & _ & [->|[? _]]); done.
  - assert (∀ x, ODtor x.2 x.1 ∈ ks' ↔ lives t x) as Hd.
    { intros x. rewrite <-HL. rewrite <-(elem_exits_dtor x false L), <-EL. by rewrite elem_lifes. }
    intros x [Hc Hn]. rewrite map_app, map_ob_under, !elem_of_app in Hc, Hn. apply Hn. right. left. apply Hd.
    destruct Hc as [Hc|[Hc|Hc]].
    + split; [done|]. tauto.
    + exfalso. assert (OCtor x.2 x.1 ∈ lifes ks') as Hin by by apply elem_lifes. rewrite EL in Hin. by eapply exits_no_ctor.
    + by apply elem_of_list_singleton in Hc.
Qed.

(** An exception that leaves a call: unconsumed_event() threw it, the machine was cleared, or an allocator threw it
    when an event was to be deferred. *)
Definition raised (t T : list obs) (y : exn) : Prop :=
  (∃ T0 e kc, T = T0 ++ under (Some e) (OUnconsumed e :: kc ++ [OThrow y]) ++ under None [ODone] ∧ calls kc) ∨
  (last_thrown y T ∧ ∃ T1 b T2, T = T1 ++ Obs b OReset :: T2 ∧ Forall (λ o, ob o = ODone) T2 ∧ ∀ x, ¬ lives (t ++ T) x) ∨
  (∃ T0 e, T = T0 ++ under None [ODone; ORefused (ADefer e); OThrow y]).
Lemma raised_pre t T T' y : raised (t ++ T) T' y → raised t (T ++ T') y.
Proof.
  intros [(T0 & e & kc & -> & H)|[(H & T1 & b & T2 & E & H2 & H3)|(T0 & e & ->)]].
  - left. exists (T ++ T0), e, kc. split; [by rewrite <-app_assoc|done].
  - right. left. split; [by apply last_thrown_pre|]. exists (T ++ T1), b, T2. split; [by rewrite E, <-app_assoc|]. split; [done|].
    by rewrite app_assoc.
  - right. right. exists (T ++ T0), e. by rewrite <-app_assoc.
Qed.
Lemma ending_last t fe ks : ending ch t fe ks → ∃ ks', ks = ks' ++ [OReset].
Proof. intros (ks' & -> & _). eauto. Qed.
Lemma raised_one_event t e T y : one_event ch U t e T (Threw y) → raised t T y.
Proof.
  intros H. inversion H as [|ls T1 ks y0 Hin Hd Hca|ls T1 y0 ks Hin Hd Hen]; subst.
  - destruct y0 as [y0|]; [|done]. match goal with H : Threw _ = Threw _ |- _ => injection H as -> end.
    inversion Hca; subst. left. exists (under (Some e) [ODispatch e ls] ++ T1), e. eexists. split; [by rewrite <-app_assoc|done].
  - right. left. apply dispatch_throws in Hd. rewrite app_assoc in Hen. apply (ending_gone _ (Some e)) in Hen as Hg.
    destruct Hg as [Hg1 Hg2]. split.
    + apply last_thrown_pre. apply last_thrown_app; [done|]. apply Forall_app. split; [done|by repeat constructor].
    + destruct (ending_last _ _ _ Hen) as [ks' ->]. exists (under (Some e) [ODispatch e ls] ++ T1 ++ under (Some e) ks'), (Some e), (under None [ODone]).
      split; [by rewrite under_app_, <-!app_assoc|]. split; [by repeat constructor|].
      intros x Hx. apply (Hg2 x). rewrite !app_assoc in Hx. rewrite ?app_assoc.
      destruct Hx as [H1 H2]. rewrite map_app, elem_of_app in H1, H2. split; [|tauto]. destruct H1 as [H1|H1]; [done|].
      by apply elem_of_list_singleton in H1.
Qed.
Lemma raised_refused t e T y : one_event ch U t e T (Done RDefer) → raised t (T ++ under None (refused e y)) y.
Proof.
  intros H. destruct (one_event_last _ _ _ _ H) as [T0 ->]. right. right. exists T0, e. by rewrite <-app_assoc.
Qed.
Lemma raised_event_loop n t T y : event_loop ch U n t T (Raised y) → raised t T y.
Proof.
  intros H. remember (Raised y) as o eqn:Eo in H. induction H as [n t|t|n t e T r T' o H1 _ IH|n t e T y0 H1|n t e T y0 H1]; try done.
  - apply raised_pre, raised_pre, raised_pre. rewrite <-!app_assoc. by apply IH.
  - injection Eo as ->. apply raised_pre. by apply raised_one_event in H1.
  - injection Eo as ->. apply raised_pre. by apply raised_refused.
Qed.
Lemma raised_translated t (P : list okind → outcome → Prop) T y :
  (∀ ks y, P ks (Threw y) → ∃ Q, stops ch Q y ks) → translated ch U t P T (Raised y) → raised t T y.
Proof.
  intros HP H. inversion H as [| |ks y0 T0 y' ks' Hk Hh Hen]; subst. right. left.
  destruct (HP _ _ Hk) as [Q HQ]. destruct (stops_thrown _ _ _ _ HQ) as (k1 & k2 & -> & H1 & H2).
  apply (ending_gone _ None) in Hen as Hg. destruct Hg as [Hg1 Hg2]. split.
  - rewrite app_assoc. apply last_thrown_app; [|done]. eapply handling_throws; [exact Hh|]. by apply last_thrown_under.
  - destruct (ending_last _ _ _ Hen) as [ke ->]. exists (under None (k1 ++ OThrow y0 :: k2) ++ T0 ++ under None ke), None, [].
    split; [by rewrite (under_app_ None ke), <-!app_assoc|]. split; [constructor|]. intros x Hx. apply (Hg2 x). by rewrite <-!app_assoc in *.
Qed.
Lemma raised_story o t T y : story ch U o t T (Raised y) → raised t T y.
Proof.
  assert (∀ t T, terminating ch U t T (Raised y) → raised t T y) as Hterm.
  { intros t' T' H. eapply raised_translated; [|exact H]. intros ks y0 Hk. by eexists. }
  destruct o as [n| |n e|e|c k|c k]; cbn [story]; intros H.
  - inversion H as [T0 y0 H1|T0 T1 y0 H1 H2|T0 T1 T2 o0 H1 H2 H3]; subst.
    + by apply Hterm.
    + apply raised_pre. eapply raised_translated; [|exact H2]. intros ks y1 Hk. by eexists.
    + apply raised_pre, raised_pre. rewrite <-app_assoc. by eapply raised_event_loop.
  - by apply Hterm.
  - inversion H as [T0 r T' o H1 Hl|T0 y0 H1|T0 y0 H1]; subst.
    + apply raised_pre, raised_pre, raised_pre. rewrite <-!app_assoc. by eapply raised_event_loop.
    + apply raised_pre. by apply raised_one_event in H1.
    + apply raised_pre. by apply raised_refused.
  - by destruct H.
  - by destruct H.
  - by destruct H.
Qed.

(** ** Machines *)
Context (HU : user_ok ch U).
Lemma everyx_reach s : reach ch U s → everyx [] (tr s).
Proof.
  assert (∀ s o r s', reach ch U s → everyx [] (tr s) → op_ok ch o = true →
    op_allowed ch U o s → call ch U o s = (r, s') → everyx [] (tr s')) as Hgo.
  { intros s1 o r s' Hr H1 H3 H4 H5. destruct (story_call ch U Hwf HU _ _ _ _ Hr H3 H4 H5) as (T & o' & _ & -> & Hst).
    apply everyx_app; [done|]. eapply everyx_story; [|exact Hst]. by apply (every_reach ch U Hwf HU). }
  induction 1 as [w|s o s' Hr IH H1 H2 H3|s o x s' Hr IH H1 H2 H3].
  - apply everywhere_nil.
  - by eapply Hgo.
  - by eapply Hgo.
Qed.
Lemma everyx_seen s : seen ch U s → everyx [] (tr s).
Proof.
  intros [s' Hs|s' o s1 Hs H1 H2 H3|s' s1 Hs H1].
  - by apply everyx_reach.
  - destruct (story_call ch U Hwf HU _ _ _ _ Hs H1 H2 H3) as (T & o' & _ & -> & Hst).
    apply everyx_app; [by apply everyx_reach|]. eapply everyx_story; [|exact Hst]. by apply (every_reach ch U Hwf HU).
  - destruct (destroyed ch U Hwf HU _ _ _ Hs H1) as (_ & _ & ks & L & -> & Hq & _).
    apply everyx_app; [by apply everyx_reach|]. apply everyx_plain. apply Forall_app. split; [|by repeat constructor].
    eapply Forall_impl; [exact Hq|]. by intros [].
Qed.
Lemma raised_call s o y s' : reach ch U s → op_ok ch o = true → op_allowed ch U o s → call ch U o s = (Exn y, s') →
  ∃ T, tr s' = tr s ++ T ∧ raised (tr s) T y.
Proof.
  intros Hr H1 H2 H3. destruct (story_call ch U Hwf HU _ _ _ _ Hr H1 H2 H3) as (T & o' & He & E & Hst).
  exists T. split; [done|]. destruct o' as [|y'|]; try done. cbn in He. injection He as <-. by eapply raised_story.
Qed.
End escape.
