(** What each entry of a trace means: what follows it, and what was true when it was made. *)
From Verif Require Export Calls.

(** ** The event being processed *)
(** The event being dispatched and the exception event being handled. *)
Record mode := Mode { md_disp : option event; md_exc : option event }.
Definition mode_step (m : mode) (k : okind) : mode :=
  match k with
  | ODispatch e _ => Mode (Some e) None
  | OHandle _ e => Mode (md_disp m) (Some e)
  | OHandled | OUnhandled => Mode (md_disp m) None
  | ODone => Mode None None
  | _ => m
  end.
Definition mode_of (t : list obs) : mode := fold_left (λ m o, mode_step m (ob o)) t (Mode None None).
Definition idle : mode := Mode None None.
(** What triggering_event() must return. *)
Definition current (t : list obs) : option event :=
  match md_exc (mode_of t) with Some e => Some e | None => md_disp (mode_of t) end.
(** Is an exception event being handled? *)
Definition excepting (t : list obs) : bool := bool_decide (md_exc (mode_of t) ≠ None).

Lemma mode_app t u : mode_of (t ++ u) = fold_left (λ m o, mode_step m (ob o)) u (mode_of t).
Proof. apply fold_left_app. Qed.
Lemma mode_snoc t o : mode_of (t ++ [o]) = mode_step (mode_of t) (ob o).
Proof. by rewrite mode_app. Qed.

(** ** Properties of all entries *)
Definition everywhere (Q : list obs → obs → list obs → Prop) (t T : list obs) : Prop :=
  ∀ T1 o T2, T = T1 ++ o :: T2 → Q (t ++ T1) o T2.

Lemma everywhere_nil Q t : everywhere Q t [].
Proof. intros T1 o T2 H. by destruct T1. Qed.
Lemma everywhere_app (Q : list obs → obs → list obs → Prop) t T T' :
  (∀ t o T T', Q t o T → Q t o (T ++ T')) →
  everywhere Q t T → everywhere Q (t ++ T) T' → everywhere Q t (T ++ T').
Proof.
  intros HQ H1 H2 T1 o T2 E. apply app_eq_inv in E as [(k & -> & E)|(k & -> & ->)].
  - destruct k as [|o' k]; simpl in E.
    + subst T'. specialize (H2 [] o T2 eq_refl). by rewrite !app_nil_r in H2.
    + injection E as -> ->. apply HQ. by apply H1.
  - rewrite app_assoc. by apply H2.
Qed.
Lemma everywhere_one (Q : list obs → obs → list obs → Prop) t o : Q t o [] → everywhere Q t [o].
Proof.
  intros H T1 o' T2 E. destruct T1 as [|? T1]; [|by destruct T1]. injection E as <- <-. by rewrite app_nil_r.
Qed.
Lemma everywhere_cons (Q : list obs → obs → list obs → Prop) t o T :
  Q t o T → everywhere Q (t ++ [o]) T → everywhere Q t (o :: T).
Proof.
  intros H1 H2 T1 o' T2 E. destruct T1 as [|? T1]; simpl in E; injection E as <- ->.
  - by rewrite app_nil_r.
  - rewrite cons_middle, app_assoc. by apply H2.
Qed.
Lemma everywhere_mono (Q Q' : list obs → obs → list obs → Prop) t T :
  (∀ t o T, Q t o T → Q' t o T) → everywhere Q t T → everywhere Q' t T.
Proof. intros H H1 T1 o T2 E. by apply H, H1. Qed.

(** Entries that do not start or end anything. *)
Definition dull (k : okind) : bool :=
  match k with
  | OVisit _ _ _ | OResult _ _ _ | OTransit _ _ _ | OTerminate _ _ | ODispatch _ _ | OHandle _ _ | OHandled
  | OUnhandled | ODone => false
  | _ => true
  end.
(** Entries that do not change the event being processed. *)
Definition still (k : okind) : bool :=
  match k with ODispatch _ _ | OHandle _ _ | OHandled | OUnhandled | ODone => false | _ => true end.
(** Entries that end the search for someone who handles an exception. *)
Definition settled (k : okind) : bool := match k with OHandled | OReset | ODone => true | _ => false end.

(** The traces tell the same about state objects. *)
Definition same_objs (t t' : list obs) : Prop :=
  (∀ x, lives t x ↔ lives t' x) ∧ (∀ n, below t n ↔ below t' n).
Lemma same_objs_refl t : same_objs t t.
Proof. by split. Qed.
Lemma same_objs_sym t t' : same_objs t t' → same_objs t' t.
Proof. intros [H1 H2]. split; intros; symmetry; auto. Qed.
Lemma same_objs_trans t t' t'' : same_objs t t' → same_objs t' t'' → same_objs t t''.
Proof. intros [H1 H2] [H3 H4]. split; intros; etrans; eauto. Qed.
Lemma same_objs_app t u : Forall (λ o, is_life (ob o) = false) u → same_objs t (t ++ u).
Proof.
  intros Hu. assert (∀ k, is_life k = true → k ∈ map ob (t ++ u) ↔ k ∈ map ob t) as H.
  { intros k Hk. rewrite map_app, elem_of_app. split; [|by left]. intros [H|H]; [done|].
    apply elem_of_list_fmap in H as (o & -> & H). rewrite Forall_forall in Hu. rewrite Hu in Hk; done. }
  split.
  - intros x. unfold lives. by rewrite !H.
  - intros n. unfold below. split; intros Hb k y Hk Hl; [apply H in Hk|apply H in Hk|..]; try done; by apply Hb.
Qed.
Lemma same_objs_under t b ks : Forall (λ k, is_life k = false) ks → same_objs t (t ++ under b ks).
Proof. intros H. apply same_objs_app. unfold under. by apply Forall_map. Qed.

Section meaning.
Context {W : Type} (ch : chart) (U : user W).

(** The traces that tell the same about state objects allow the same. *)
Lemma goes_mono (P P' : list okind → Prop) ks : (∀ k, P k → P' k) → goes P ks → goes P' ks.
Proof. intros H [H1 H2]. split; auto. Qed.
Lemma stops_mono (P P' : list okind → Prop) y ks : (∀ k, P k → P' k) → stops ch P y ks → stops ch P' y ks.
Proof. intros H (k1 & g & k2 & r & H1 & H2 & H3 & H4 & H5 & H6). exists k1, g, k2, r. split_and!; auto. Qed.
Lemma transit_plan_same t t' fe e x d act ks : same_objs t t' →
  transit_plan ch t fe e x d act ks → transit_plan ch t' fe e x d act ks.
Proof.
  intros [S1 S2] (cc & z & cx & L1 & L2 & n & cs & kb & H0 & H1 & H2 & H3 & H4 & Hr & Hc & H5 & H6 & H7 & H8 & H9 & H10 & H11).
  exists cc, z, cx, L1, L2, n, cs, kb. split_and!; try done.
  - by apply S1.
  - intros q Hq. by apply S1, Hc.
  - intros y. by rewrite <-S1.
  - intros y. by rewrite <-S1.
  - by apply S2.
Qed.
Lemma terminate_plan_same t t' fe x ks : same_objs t t' → terminate_plan ch t fe x ks → terminate_plan ch t' fe x ks.
Proof.
  intros [S1 S2] (L & H1 & H2 & H3). exists L. split_and!; try done. intros y. rewrite H1, <-S1.
  setoid_rewrite <-S1. done.
Qed.
Lemma effect_same t t' fe e x d ks o : same_objs t t' → effect ch t fe e x d ks o → effect ch t' fe e x d ks o.
Proof.
  intros S H. destruct H.
  - apply ef_discard.
  - apply ef_forward.
  - apply ef_defer.
  - apply ef_throw.
  - apply ef_transit. eapply goes_mono; [|done]. intros k. by apply transit_plan_same.
  - apply ef_transit_x. eapply stops_mono; [|done]. intros k. by apply transit_plan_same.
  - apply ef_terminate. eapply goes_mono; [|done]. intros k. by apply terminate_plan_same.
  - apply ef_terminate_x. eapply stops_mono; [|done]. intros k. by apply terminate_plan_same.
Qed.
Lemma turn_same t t' fe e x ks o : same_objs t t' → turn ch U t fe e x ks o → turn ch U t' fe e x ks o.
Proof.
  intros S H. destruct H.
  - by apply tu_none.
  - eapply tu_transition; [done|]. by eapply effect_same.
  - eapply tu_deferral; [done|]. by eapply effect_same.
  - eapply tu_termination; [done|]. by eapply effect_same.
  - by eapply tu_in_state.
  - by eapply tu_in_state_call.
  - eapply tu_custom; [done|done|]. by eapply effect_same.
Qed.

(** Why [x] is asked: it is the first innermost state, or exception handling starts there, or the event was
    forwarded by the state directly inside or by an outermost state. *)
Definition asked (t : list obs) (x : obj) : Prop :=
  ∃ t0 o, t = t0 ++ [o] ∧
    match ob o with
    | ODispatch _ ls => hd_error ls = Some x.1
    | OHandle p _ => p = x.2
    | OResult p c r => r = RForward ∧
        (parent ch c = Some x.1 ∨ parent ch c = None ∧ is_leaf ch x.1 = true)
    | _ => False
    end.

(** *** What an entry means *)
Definition details (t : list obs) (o : obs) (T : list obs) : Prop :=
  match ob o with
  | OVisit p c e =>
      lives t (c, p) ∧ asked t (c, p) ∧ ∃ ks r T', T = under (Some e) ks ++ T' ∧ ob_trig o = Some e ∧
        turn ch U t (negb (excepting t)) e (c, p) ks r ∧
        (∀ q, r = Done q → ∃ T'', T' = Obs (Some e) (OResult p c q) :: T'')
  | OResult p c r => r = RForward → ∀ q, parent ch c = Some q →
      ∃ e p' T', T = Obs (ob_trig o) (OVisit p' q e) :: T' ∧ ob_trig o = Some e
  | OTransit p c d =>
      ∃ e act ks r T', T = under (Some e) ks ++ T' ∧ ob_trig o = Some e ∧
        effect ch t (negb (excepting t)) e (c, p) (DTransit d act) (OTransit p c d :: ks) r ∧
        (∀ q, r = Done q → ∃ T'', T' = Obs (Some e) (OResult p c q) :: T'')
  | OTerminate p c =>
      ∃ e ks r T', T = under (Some e) ks ++ T' ∧ ob_trig o = Some e ∧
        effect ch t (negb (excepting t)) e (c, p) DTerminate (OTerminate p c :: ks) r ∧
        (∀ q, r = Done q → ∃ T'', T' = Obs (Some e) (OResult p c q) :: T'')
  | ODispatch e ls => ∃ T1 r T2, o :: T = T1 ++ T2 ∧ one_event ch U t e T1 r
  | _ => True
  end.
Definition meaning (t : list obs) (o : obs) (T : list obs) : Prop :=
  ob_trig o = current (t ++ [o]) ∧ details t o T.

Lemma meaning_mono t o T T' : meaning t o T → meaning t o (T ++ T').
Proof.
  intros [H1 H2]. split; [done|]. unfold details in *. destruct (ob o) eqn:Ho; try done.
  - destruct H2 as (T1 & r & T2 & E & H). exists T1, r, (T2 ++ T').
    rewrite app_comm_cons, E, <-app_assoc. done.
  - destruct H2 as [H2 [H2' (ks & r & T0 & -> & H3 & H4 & H5)]]. split; [done|]. split; [done|]. exists ks, r, (T0 ++ T').
    rewrite <-app_assoc. split_and!; try done. intros q Hq. destruct (H5 q Hq) as (T'' & ->). by exists (T'' ++ T').
  - intros Hr q Hq. destruct (H2 Hr q Hq) as (e & p' & T0 & -> & Hb). exists e, p', (T0 ++ T'). done.
  - destruct H2 as (e & act & ks & r & T0 & -> & H3 & H4 & H5). exists e, act, ks, r, (T0 ++ T').
    rewrite <-app_assoc. split_and!; try done. intros q Hq. destruct (H5 q Hq) as (T'' & ->). by exists (T'' ++ T').
  - destruct H2 as (e & ks & r & T0 & -> & H3 & H4 & H5). exists e, ks, r, (T0 ++ T').
    rewrite <-app_assoc. split_and!; try done. intros q Hq. destruct (H5 q Hq) as (T'' & ->). by exists (T'' ++ T').
Qed.

Lemma under_app_ b ks ks' : under b (ks ++ ks') = under b ks ++ under b ks'.
Proof. apply map_app. Qed.
Lemma mode_still t b ks : Forall (λ k, still k = true) ks → mode_of (t ++ under b ks) = mode_of t.
Proof.
  intros H. rewrite mode_app. generalize (mode_of t). induction H as [|k ks Hk _ IH]; intros m; [done|]. simpl.
  rewrite IH. by destruct k.
Qed.
Lemma current_mode t t' : mode_of t = mode_of t' → current t = current t'.
Proof. unfold current. by intros ->. Qed.
Lemma excepting_mode t t' : mode_of t = mode_of t' → excepting t = excepting t'.
Proof. unfold excepting. by intros ->. Qed.
Lemma dull_still k : dull k = true → still k = true.
Proof. by destruct k. Qed.
Lemma dulls_still ks : Forall (λ k, dull k = true) ks → Forall (λ k, still k = true) ks.
Proof. intros H. eapply Forall_impl; [exact H|]. apply dull_still. Qed.
Lemma quiet_dull k : quiet k = true → dull k = true.
Proof. by destruct k. Qed.
Lemma quiets_dull ks : Forall (λ k, quiet k = true) ks → Forall (λ k, dull k = true) ks.
Proof. intros H. eapply Forall_impl; [exact H|]. apply quiet_dull. Qed.
Lemma calls_dull ks : calls ks → Forall (λ k, dull k = true) ks.
Proof. intros H. eapply Forall_impl; [exact H|]. intros k [Hk _]. by apply quiet_dull. Qed.
Lemma calls_no_life ks : calls ks → Forall (λ k, is_life k = false) ks.
Proof. intros H. eapply Forall_impl; [exact H|]. by intros k []. Qed.
Lemma called_dull ks y : called ks y → Forall (λ k, dull k = true) ks.
Proof. destruct 1; [by apply calls_dull|]. apply Forall_app. split; [by apply calls_dull|by repeat constructor]. Qed.
Lemma called_no_life ks y : called ks y → Forall (λ k, is_life k = false) ks.
Proof. destruct 1; [by apply calls_no_life|]. apply Forall_app. split; [by apply calls_no_life|by repeat constructor]. Qed.
Lemma goes_dull P ks : goes P ks → Forall (λ k, dull k = true) ks.
Proof. intros [H _]. by apply quiets_dull. Qed.
Lemma stops_dull P y ks : stops ch P y ks → Forall (λ k, dull k = true) ks.
Proof.
  intros (k1 & g & k2 & r & -> & H1 & H2 & _). rewrite !Forall_app. split_and!; [by apply quiets_dull|by destruct g; repeat constructor|].
  constructor; [done|by apply quiets_dull].
Qed.

Notation every := (everywhere meaning).
Lemma every_app t T T' : every t T → every (t ++ T) T' → every t (T ++ T').
Proof. apply everywhere_app. intros. by apply meaning_mono. Qed.
Lemma every_cons t o T : meaning t o T → every (t ++ [o]) T → every t (o :: T).
Proof. apply everywhere_cons. Qed.
Lemma meaning_still t b k T : still k = true → current t = b → details t (Obs b k) T → meaning t (Obs b k) T.
Proof.
  intros Hk Hb Hd. split; [|done]. simpl. rewrite <-Hb. apply current_mode. rewrite mode_snoc. by destruct k.
Qed.
Lemma details_dull t b k T : dull k = true → details t (Obs b k) T.
Proof. by destruct k. Qed.
Lemma every_dull t b ks : Forall (λ k, dull k = true) ks → current t = b → every t (under b ks).
Proof.
  intros H. revert t. induction H as [|k ks Hk _ IH]; intros t Hb; [apply everywhere_nil|]. simpl. apply every_cons.
  - apply meaning_still; [by apply dull_still|done|by apply details_dull].
  - apply IH. erewrite current_mode; [exact Hb|]. rewrite mode_snoc. by destruct k.
Qed.
Lemma current_cons t b k ks : still k = true → current (t ++ under b (k :: ks)) = current ((t ++ [Obs b k]) ++ under b ks).
Proof. intros Hk. simpl. by rewrite <-app_assoc. Qed.

(** *** Reactions *)
Lemma effect_still t fe e x d ks o : effect ch t fe e x d ks o → Forall (λ k, still k = true) ks.
Proof.
  destruct 1; try (by repeat constructor); (constructor; [done|]); apply dulls_still;
    first [by eapply goes_dull|by eapply stops_dull].
Qed.
Lemma effect_forward t fe e x d ks : effect ch t fe e x d ks (Done RForward) → ks = [].
Proof. inversion 1; done. Qed.
(** What comes after a reaction: its result, unless it threw. *)
Definition results (e : event) (x : obj) (o : outcome) (T : list obs) : Prop :=
  ∀ q, o = Done q → ∃ T', T = Obs (Some e) (OResult x.2 x.1 q) :: T'.
Lemma every_effect t e x d ks o K : current t = Some e →
  effect ch t (negb (excepting t)) e x d ks o → results e x o K →
  every (t ++ under (Some e) ks) K → every t (under (Some e) ks ++ K).
Proof.
  intros Hc He HK HK'. pose proof (effect_still _ _ _ _ _ _ _ He) as Hs.
  assert (∀ k ks0, ks = k :: ks0 → Forall (λ k, dull k = true) ks0 → details t (Obs (Some e) k) (under (Some e) ks0 ++ K) →
    every t (under (Some e) ks ++ K)) as Hgo.
  { intros k ks0 -> Hd Hk. apply Forall_cons in Hs as [Hs1 Hs2].
    change (under (Some e) (k :: ks0) ++ K) with (Obs (Some e) k :: under (Some e) ks0 ++ K). apply every_cons.
    - by apply meaning_still.
    - apply every_app; [|by rewrite <-app_assoc]. apply every_dull; [done|].
      erewrite current_mode; [exact Hc|]. apply (mode_still t (Some e) [k]). by repeat constructor. }
  pose proof He as He'. destruct x as [c p]. cbn [fst snd] in *. destruct He; try by rewrite app_nil_r in HK'.
  - by apply (Hgo (OThrow y) []).
  - eapply Hgo; [done|by eapply goes_dull|]. cbn. eexists _, _, _, _, K. by split_and!.
  - eapply Hgo; [done|by eapply stops_dull|]. cbn. eexists _, _, _, _, K. by split_and!.
  - eapply Hgo; [done|by eapply goes_dull|]. cbn. eexists _, _, _, K. by split_and!.
  - eapply Hgo; [done|by eapply stops_dull|]. cbn. eexists _, _, _, K. by split_and!.
Qed.

Lemma turn_still t fe e x ks o : turn ch U t fe e x ks o → Forall (λ k, still k = true) ks.
Proof.
  destruct 1; try (by repeat constructor); try (by eapply effect_still).
  - constructor; [done|]. apply dulls_still. by eapply called_dull.
  - constructor; [done|]. apply Forall_app. split; [apply dulls_still; by apply calls_dull|by eapply effect_still].
Qed.
Lemma turn_forward t fe e x ks : turn ch U t fe e x ks (Done RForward) → Forall (λ k, is_life k = false ∧ dull k = true) ks.
Proof.
  intros H. inversion H; subst; try (by repeat constructor);
    try match goal with He : effect _ _ _ _ _ _ _ _ |- _ => apply effect_forward in He; subst end; try by repeat constructor.
  - by destruct y.
  - constructor; [done|]. rewrite app_nil_r. eapply Forall_impl; [done|]. intros k [H3 H4]. split; [done|]. by apply quiet_dull.
Qed.
Lemma every_turn t e x ks o K : current t = Some e →
  turn ch U t (negb (excepting t)) e x ks o → results e x o K →
  every (t ++ under (Some e) ks) K → every t (under (Some e) ks ++ K).
Proof.
  intros Hc Ht HK HK'. destruct Ht; try (by rewrite app_nil_r in HK'); try (by eapply every_effect).
  - apply every_app; [|done]. apply every_dull; [|done]. constructor; [done|]. by eapply called_dull.
  - rewrite app_comm_cons, under_app_, <-app_assoc. rewrite app_comm_cons, under_app_, app_assoc in HK'. apply every_app.
    + apply every_dull; [|done]. constructor; [done|]. by apply calls_dull.
    + assert (mode_of (t ++ under (Some e) (OReact x.2 x.1 i e :: ks)) = mode_of t) as Hm.
      { apply mode_still. constructor; [done|]. by apply dulls_still, calls_dull. }
      eapply every_effect; [by rewrite (current_mode _ _ Hm)| |done|done]. rewrite (excepting_mode _ _ Hm).
      eapply effect_same; [|done]. apply same_objs_under. constructor; [done|]. by apply calls_no_life.
Qed.

Lemma search_still t fe e x ks o : search ch U t fe e x ks o → Forall (λ k, still k = true) ks.
Proof.
  induction 1 as [x ks r Ht _|x ks y Ht|x ks Ht _|x ks z ks' o Ht _ _ _ IH].
  - constructor; [done|]. apply Forall_app. split; [by eapply turn_still|by repeat constructor].
  - constructor; [done|]. by eapply turn_still.
  - constructor; [done|]. apply Forall_app. split; [by eapply turn_still|by repeat constructor].
  - constructor; [done|]. apply Forall_app. split; [by eapply turn_still|by constructor].
Qed.
Lemma search_forward t fe e x ks : search ch U t fe e x ks (Done RForward) → Forall (λ k, is_life k = false) ks.
Proof.
  assert (∀ x ks, turn ch U t fe e x ks (Done RForward) → Forall (λ k, is_life k = false) ks) as Hf.
  { intros x' ks' H%turn_forward. eapply Forall_impl; [exact H|]. by intros k []. }
  intros Hs. remember (Done RForward) as o eqn:Ho in Hs.
  induction Hs as [x ks r Ht Hr|x ks y Ht|x ks Ht _|x ks z ks' o Ht _ _ _ IH].
  - congruence.
  - congruence.
  - constructor; [done|]. apply Forall_app. split; [by eapply Hf|by repeat constructor].
  - constructor; [done|]. apply Forall_app. split; [by eapply Hf|]. constructor; [done|by apply IH].
Qed.

Lemma every_visit t0 t fe e x ks o ks2 :
  same_objs t0 t → fe = negb (excepting t) → current t = Some e → lives t0 x → asked t x → turn ch U t0 fe e x ks o →
  (∀ q, o = Done q → ∃ ks3, ks2 = OResult x.2 x.1 q :: ks3) →
  every (t ++ under (Some e) (OVisit x.2 x.1 e :: ks)) (under (Some e) ks2) →
  every t (under (Some e) (OVisit x.2 x.1 e :: ks ++ ks2)).
Proof.
  intros Hso Hfe Hc Hl Ha Ht Hr H2. pose proof (turn_same _ _ _ _ _ _ _ Hso Ht) as Ht2. rewrite Hfe in Ht2.
  assert (mode_of (t ++ [Obs (Some e) (OVisit x.2 x.1 e)]) = mode_of t) as Hm by by rewrite mode_snoc.
  change (under (Some e) (OVisit x.2 x.1 e :: ks ++ ks2)) with (Obs (Some e) (OVisit x.2 x.1 e) :: under (Some e) (ks ++ ks2)).
  rewrite under_app_. apply every_cons.
  - apply meaning_still; [done..|]. destruct x as [c p]. cbn [fst snd] in *. cbn. split; [by apply Hso|]. split; [done|].
    exists ks, o, (under (Some e) ks2). split_and!; try done. intros q Hq. destruct (Hr q Hq) as (ks3 & ->). by eexists.
  - eapply every_turn; [by rewrite (current_mode _ _ Hm)| | |by rewrite <-app_assoc].
    + rewrite (excepting_mode _ _ Hm).
      eapply turn_same; [|exact Ht2]. apply (same_objs_under t (Some e) [OVisit x.2 x.1 e]). by repeat constructor.
    + intros q Hq. destruct (Hr q Hq) as (ks3 & ->). by eexists.
Qed.

Lemma every_search t0 t fe e x ks o : same_objs t0 t → fe = negb (excepting t) → current t = Some e → lives t0 x →
  asked t x → search ch U t0 fe e x ks o → every t (under (Some e) ks).
Proof.
  intros Hso Hfe Hc Hl Ha Hs. revert t Hso Hfe Hc Hl Ha. induction Hs as [x ks r Ht Hr|x ks y Ht|x ks Ht Hp|x ks z ks' o Ht Hp Hz Hs IH];
    intros t Hso Hfe Hc Hl Ha;
    (assert (mode_of (t ++ under (Some e) (OVisit x.2 x.1 e :: ks)) = mode_of t) as Hm;
     [apply mode_still; constructor; [done|by eapply turn_still]|]).
  - eapply every_visit; try done; [by intros q [= <-]; eexists|].
    apply everywhere_one, meaning_still; [done|by rewrite (current_mode _ _ Hm)|]. by cbn.
  - rewrite <-(app_nil_r ks). eapply every_visit; try done. apply everywhere_nil.
  - eapply every_visit; try done; [by intros q [= <-]; eexists|].
    apply everywhere_one, meaning_still; [done|by rewrite (current_mode _ _ Hm)|]. cbn. intros _ q. congruence.
  - eapply every_visit; try done; [by intros q [= <-]; eexists|].
    assert (mode_of ((t ++ under (Some e) (OVisit x.2 x.1 e :: ks)) ++ [Obs (Some e) (OResult x.2 x.1 RForward)]) = mode_of t) as Hm'.
    { by rewrite mode_snoc, Hm. }
    apply every_cons.
    + apply meaning_still; [done| |]; [by rewrite (current_mode _ _ Hm)|]. cbn. intros _ q Hq.
      assert (∃ ks1, ks' = OVisit z.2 z.1 e :: ks1) as [ks1 ->] by (by inversion Hs; eexists).
      rewrite Hp in Hq. injection Hq as <-. eexists _, _, _. done.
    + apply IH; [| |by rewrite (current_mode _ _ Hm')|done|by do 2 eexists; (split; [done|]); cbn; auto].
      * eapply same_objs_trans; [exact Hso|]. rewrite <-app_assoc. apply same_objs_app. apply Forall_app. split; [|by repeat constructor].
        apply Forall_map. constructor; [done|]. apply turn_forward in Ht. eapply Forall_impl; [exact Ht|]. by intros k [].
      * by rewrite (excepting_mode _ _ Hm').
Qed.

(** *** Exceptions *)
Lemma every_handled t0 t b cur st y T o : mode_of t = Mode b None →
  handled ch U t0 t b cur st y T o → every t T ∧ mode_of (t ++ T) = Mode b None.
Proof.
  intros Hm Hh.
  assert (∀ xe x ks o' k, lives t x → search ch U t false xe x ks o' → k = OHandled ∨ k = OUnhandled →
    every t (under (Some xe) (OHandle x.2 xe :: ks) ++ under b [k]) ∧
    mode_of (t ++ under (Some xe) (OHandle x.2 xe :: ks) ++ under b [k]) = Mode b None) as Hgo.
  { intros xe x ks o' k Hl Hs Hk.
    assert (mode_of (t ++ [Obs (Some xe) (OHandle x.2 xe)]) = Mode b (Some xe)) as Hm1 by by rewrite mode_snoc, Hm.
    assert (mode_of (t ++ under (Some xe) (OHandle x.2 xe :: ks)) = Mode b (Some xe)) as Hm2.
    { rewrite <-Hm1. change (under (Some xe) (OHandle x.2 xe :: ks)) with ([Obs (Some xe) (OHandle x.2 xe)] ++ under (Some xe) ks).
      rewrite app_assoc. apply mode_still. by eapply search_still. }
    assert (mode_of ((t ++ under (Some xe) (OHandle x.2 xe :: ks)) ++ under b [k]) = Mode b None) as Hm3.
    { rewrite (mode_snoc _ (Obs b k)), Hm2. by destruct Hk as [->| ->]. }
    split; [|by rewrite app_assoc]. apply every_app.
    - apply every_cons.
      + split; [|done]. unfold current. by rewrite Hm1.
      + eapply every_search; [| | |exact Hl|by do 2 eexists|done].
        * apply (same_objs_under t (Some xe) [OHandle x.2 xe]). by repeat constructor.
        * unfold excepting. rewrite Hm1. done.
        * unfold current. by rewrite Hm1.
    - apply everywhere_one. split; [|by destruct Hk as [->| ->]]. cbn [ob_trig]. unfold current.
      change [Obs b k] with (under b [k]). by rewrite Hm3. }
  destruct Hh as [_|xe x ks _ Hl _ Hs _ _|xe x ks r _ Hl _ Hs _|xe x ks y' _ Hl _ Hs].
  - split; [apply everywhere_nil|]. by rewrite app_nil_r.
  - by eapply (Hgo _ _ _ _ OHandled); [..|left].
  - by eapply (Hgo _ _ _ _ OUnhandled); [..|right].
  - by eapply (Hgo _ _ _ _ OUnhandled); [..|right].
Qed.
Lemma every_handling t0 t b cur st y T o : mode_of t = Mode b None →
  handling ch U t0 t b cur st y T o → every t T ∧ mode_of (t ++ T) = Mode b None.
Proof.
  intros Hm [T' o' Hh].
  assert (mode_of (t ++ under b [OCatch y]) = Mode b None) as Hm1.
  { rewrite mode_still; [done|]. by repeat constructor. }
  destruct (every_handled _ _ _ _ _ _ _ _ Hm1 Hh) as [H1 H2]. rewrite app_assoc. split; [|done]. apply every_app; [|done].
  apply everywhere_one. split; [|done]. cbn [ob_trig]. unfold current. change [Obs b (OCatch y)] with (under b [OCatch y]).
  by rewrite Hm1.
Qed.

Lemma search_top t fe e x ks : search ch U t fe e x ks (Done RForward) →
  ∃ ks' p c, ks = ks' ++ [OResult p c RForward] ∧ parent ch c = None.
Proof.
  intros Hs. remember (Done RForward) as o eqn:Ho in Hs.
  induction Hs as [x ks r Ht Hr|x ks y Ht|x ks Ht Hp|x ks z ks' o Ht _ _ _ IH]; try congruence.
  - exists (OVisit x.2 x.1 e :: ks), x.2, x.1. done.
  - destruct (IH Ho) as (k & p & c & -> & Hc). exists (OVisit x.2 x.1 e :: ks ++ OResult x.2 x.1 RForward :: k), p, c.
    split; [|done]. simpl. by rewrite <-app_assoc.
Qed.
Lemma asked_next t b ks x : is_leaf ch x.1 = true →
  (∃ ks' p c, ks = ks' ++ [OResult p c RForward] ∧ parent ch c = None) → asked (t ++ under b ks) x.
Proof.
  intros Hx (ks' & p & c & -> & Hc). exists (t ++ under b ks'), (Obs b (OResult p c RForward)).
  rewrite under_app_, app_assoc. split; [done|]. cbn. auto.
Qed.

Lemma every_dispatch e t ls T o : mode_of t = Mode (Some e) None →
  Forall (λ c, is_leaf ch c = true) ls → (∀ x, hd_error ls = Some x.1 → asked t x) →
  dispatch ch U e t ls T o → every t T ∧ mode_of (t ++ T) = Mode (Some e) None.
Proof.
  intros Hm Hls Ha Hd. induction Hd as [t|t x ls ks T o Hl Hs Hd IH|t x ls ks r Hl Hs Hr|t x ls ks y T o Hl Hs Hh].
  - split; [apply everywhere_nil|]. by rewrite app_nil_r.
  - assert (every t (under (Some e) ks)) as H1.
    { eapply every_search; [apply same_objs_refl| | |exact Hl|by apply Ha|done]; [unfold excepting|unfold current]; by rewrite Hm. }
    assert (mode_of (t ++ under (Some e) ks) = Mode (Some e) None) as H2.
    { rewrite mode_still; [done|]. by eapply search_still. }
    apply Forall_cons in Hls as [_ Hls]. destruct (IH H2 Hls) as [H3 H4].
    { intros z Hz. apply asked_next; [|by eapply search_top]. destruct ls; [done|]. injection Hz as ->.
      by apply Forall_cons in Hls as []. }
    rewrite app_assoc. split; [by apply every_app|done].
  - split.
    + eapply every_search; [apply same_objs_refl| | |exact Hl|by apply Ha|done]; [unfold excepting|unfold current]; by rewrite Hm.
    + rewrite mode_still; [done|]. by eapply search_still.
  - assert (every t (under (Some e) ks)) as H1.
    { eapply every_search; [apply same_objs_refl| | |exact Hl|by apply Ha|done]; [unfold excepting|unfold current]; by rewrite Hm. }
    assert (mode_of (t ++ under (Some e) ks) = Mode (Some e) None) as H2.
    { rewrite mode_still; [done|]. by eapply search_still. }
    destruct (every_handling _ _ _ _ _ _ _ _ H2 Hh) as [H3 H4]. rewrite app_assoc. split; [by apply every_app|done].
Qed.

Lemma ending_dull t fe ks : ending ch t fe ks → Forall (λ k, dull k = true) ks.
Proof. intros (ks' & -> & H). apply Forall_app. split; [by eapply goes_dull|by repeat constructor]. Qed.

Lemma every_one_event e t T o : mode_of t = idle → one_event ch U t e T o → every t T ∧ mode_of (t ++ T) = idle.
Proof.
  intros Hm H.
  assert (∀ ls T1 o' ks, innermost ch t ls → dispatch ch U e (t ++ under (Some e) [ODispatch e ls]) ls T1 o' →
    T = under (Some e) [ODispatch e ls] ++ T1 ++ under (Some e) ks ++ under None [ODone] →
    Forall (λ k, dull k = true) ks → every t T ∧ mode_of (t ++ T) = idle) as Hgo.
  { intros ls T1 o' ks Hin Hd HT Hk.
    assert (mode_of (t ++ under (Some e) [ODispatch e ls]) = Mode (Some e) None) as Hm1.
    { exact (mode_snoc t (Obs (Some e) (ODispatch e ls))). }
    assert (Forall (λ c, is_leaf ch c = true) ls) as Hls.
    { apply Forall_forall. intros c Hc. by apply Hin in Hc as []. }
    edestruct every_dispatch as [H1 H2]; [exact Hm1|exact Hls| |exact Hd|].
    { intros x Hx. exists t, (Obs (Some e) (ODispatch e ls)). done. }
    assert (mode_of (t ++ T) = idle) as Hm2.
    { rewrite HT. rewrite (app_assoc t), (app_assoc (_ ++ _)), (app_assoc _ _ (under None _)).
      exact (mode_snoc _ (Obs None ODone)). }
    split; [|done]. assert (∃ T', T = Obs (Some e) (ODispatch e ls) :: T') as [T' HT'] by (rewrite HT; by eexists).
    rewrite HT'. apply every_cons.
    - split; [unfold current; change [Obs (Some e) (ODispatch e ls)] with (under (Some e) [ODispatch e ls]); by rewrite Hm1|].
      cbn. exists T, o, []. split; [by rewrite app_nil_r|done].
    - rewrite HT in HT'. injection HT' as <-. apply every_app; [done|]. apply every_app.
      + apply every_dull; [done|]. unfold current. change [Obs (Some e) (ODispatch e ls)] with (under (Some e) [ODispatch e ls]).
        by rewrite H2.
      + apply everywhere_one. split; [|done]. cbn. unfold current. rewrite mode_snoc. done. }
  destruct H as [ls T1 r Hin Hd _|ls T1 ks y Hin Hd Hca|ls T1 y ks Hin Hd Hen].
  - by eapply (Hgo _ _ _ []).
  - eapply (Hgo _ _ _ (OUnconsumed e :: ks)); [done|done|done|]. constructor; [done|]. by eapply called_dull.
  - eapply Hgo; [done|done|done|]. by eapply ending_dull.
Qed.

(** *** Calls *)
Lemma every_idle t ks : mode_of t = idle → Forall (λ k, dull k = true) ks →
  every t (under None ks) ∧ mode_of (t ++ under None ks) = idle.
Proof.
  intros Hm Hk. split; [apply every_dull; [done|]; unfold current; by rewrite Hm|].
  rewrite mode_still; [done|]. by apply dulls_still.
Qed.
Lemma every_seq t T T' : (every t T ∧ mode_of (t ++ T) = idle) →
  (every (t ++ T) T' ∧ mode_of ((t ++ T) ++ T') = idle) → every t (T ++ T') ∧ mode_of (t ++ T ++ T') = idle.
Proof. intros [H1 H2] [H3 H4]. rewrite app_assoc. split; [by apply every_app|done]. Qed.
Lemma defers_dull e o : Forall (λ k, dull k = true) (defers e o).
Proof. destruct o as [[]|]; by repeat constructor. Qed.

Lemma every_event_loop n t T o : mode_of t = idle → event_loop ch U n t T o → every t T ∧ mode_of (t ++ T) = idle.
Proof.
  intros Hm H. induction H as [n t|t|n t e T r T' o H1 _ IH|n t e T y H1|n t e T y H1].
  - apply (every_idle t []); [done|constructor].
  - apply (every_idle t []); [done|constructor].
  - apply every_seq; [apply every_idle; [done|by repeat constructor]|].
    assert (mode_of (t ++ under None [OTake e]) = idle) as Hm1 by (apply every_idle; [done|by repeat constructor]).
    pose proof (every_one_event _ _ _ _ Hm1 H1) as H2.
    apply every_seq; [done|]. apply every_seq; [apply every_idle; [apply H2|apply defers_dull]|].
    rewrite <-!app_assoc. rewrite <-!app_assoc in H2. rewrite !app_assoc. rewrite !app_assoc in IH. apply IH.
    apply every_idle; [|apply defers_dull]. rewrite <-app_assoc. apply H2.
  - apply every_seq; [apply every_idle; [done|by repeat constructor]|].
    eapply every_one_event; [|done]. apply every_idle; [done|by repeat constructor].
  - assert (mode_of (t ++ under None [OTake e]) = idle) as Hm1 by (apply every_idle; [done|by repeat constructor]).
    pose proof (every_one_event _ _ _ _ Hm1 H1) as H2.
    apply every_seq; [apply every_idle; [done|by repeat constructor]|].
    apply every_seq; [done|]. apply every_idle; [apply H2|by repeat constructor].
Qed.

Lemma every_processing n t e T o : mode_of t = idle → processing ch U n t e T o → every t T ∧ mode_of (t ++ T) = idle.
Proof.
  intros Hm H.
  assert (mode_of (t ++ under None [OProcess e]) = idle) as Hm1 by (apply every_idle; [done|by repeat constructor]).
  destruct H as [T r T' o H1 Hl|T y H1|T y H1].
  - apply every_seq; [apply every_idle; [done|by repeat constructor]|].
    pose proof (every_one_event _ _ _ _ Hm1 H1) as H2.
    apply every_seq; [done|]. apply every_seq; [apply every_idle; [apply H2|apply defers_dull]|].
    rewrite !app_assoc in Hl. eapply every_event_loop; [|done].
    apply every_idle; [|apply defers_dull]. apply H2.
  - apply every_seq; [apply every_idle; [done|by repeat constructor]|]. by eapply every_one_event.
  - pose proof (every_one_event _ _ _ _ Hm1 H1) as H2. apply every_seq; [apply every_idle; [done|by repeat constructor]|].
    apply every_seq; [done|]. apply every_idle; [apply H2|by repeat constructor].
Qed.

Lemma every_translated t (P : list okind → outcome → Prop) T o : mode_of t = idle → (∀ ks o', P ks o' → Forall (λ k, dull k = true) ks) →
  translated ch U t P T o → every t T ∧ mode_of (t ++ T) = idle.
Proof.
  intros Hm HP H. destruct H as [ks r Hk|ks y T r Hk Hh|ks y T y' ks' Hk Hh Hen].
  - apply every_idle; [done|]. by eapply HP.
  - assert (mode_of (t ++ under None ks) = idle) as Hm1 by (apply every_idle; [done|by eapply HP]).
    apply every_seq; [apply every_idle; [done|by eapply HP]|]. by eapply every_handling.
  - assert (mode_of (t ++ under None ks) = idle) as Hm1 by (apply every_idle; [done|by eapply HP]).
    pose proof (every_handling _ _ _ _ _ _ _ _ Hm1 Hh) as H2.
    apply every_seq; [apply every_idle; [done|by eapply HP]|]. apply every_seq; [done|].
    apply every_idle; [apply H2|]. by eapply ending_dull.
Qed.

Lemma every_terminating t T o : mode_of t = idle → terminating ch U t T o → every t T ∧ mode_of (t ++ T) = idle.
Proof.
  intros Hm H. eapply every_translated; [done| |done]. intros ks [r|y] Hk; [by eapply ending_dull|by eapply stops_dull].
Qed.
Lemma every_starting t T o : mode_of t = idle → translated ch U t (starts ch t) T o → every t T ∧ mode_of (t ++ T) = idle.
Proof.
  intros Hm H. eapply every_translated; [done| |done]. intros ks [r|y] Hk; [by eapply goes_dull|by eapply stops_dull].
Qed.

Lemma every_story o t T r : mode_of t = idle → story ch U o t T r → every t T ∧ mode_of (t ++ T) = idle.
Proof.
  intros Hm H. destruct o as [n| |n e|e|c k|c k]; cbn [story] in H.
  - destruct H as [T y H|T T' y H H'|T T' T'' o H H' H''].
    + by eapply every_terminating.
    + apply every_seq; [by eapply every_terminating|]. eapply every_starting; [by eapply every_terminating|done].
    + assert (mode_of (t ++ T) = idle) as Hm1 by by eapply every_terminating.
      assert (mode_of ((t ++ T) ++ T') = idle) as Hm2 by by eapply every_starting.
      apply every_seq; [by eapply every_terminating|]. apply every_seq; [by eapply every_starting|].
      eapply every_event_loop; [done|]. by rewrite <-app_assoc.
  - by eapply every_terminating.
  - by eapply every_processing.
  - destruct H as [-> _]. apply every_idle; [done|by repeat constructor].
  - destruct H as [-> _]. apply every_idle; [done|by repeat constructor].
  - destruct H as [-> _]. apply every_idle; [done|by repeat constructor].
Qed.

Context (Hwf : wf_chart ch = true) (HU : user_ok ch U).
Lemma every_reach s : reach ch U s → every [] (tr s) ∧ mode_of (tr s) = idle.
Proof.
  assert (∀ s o r s', reach ch U s → every [] (tr s) ∧ mode_of (tr s) = idle → op_ok ch o = true →
    op_allowed ch U o s → call ch U o s = (r, s') → every [] (tr s') ∧ mode_of (tr s') = idle) as Hgo.
  { intros s1 o r s' Hr [H1 H2] H3 H4 H5. destruct (reach_backed ch U Hwf HU _ Hr) as [a Ha].
    destruct (call_backed ch U Hwf HU _ _ _ _ _ Ha H3 H4 H5) as (a' & T & o' & _ & _ & -> & Hst).
    pose proof (every_story _ _ _ _ H2 Hst) as [H6 H7]. split; [|done]. by apply every_app. }
  induction 1 as [w|s o s' Hr IH H1 H2 H3|s o x s' Hr IH H1 H2 H3].
  - split; [apply everywhere_nil|done].
  - by eapply Hgo.
  - by eapply Hgo.
Qed.
Lemma every_seen s : seen ch U s → every [] (tr s) ∧ mode_of (tr s) = idle.
Proof.
  intros [s' Hs|s' o s1 Hs H1 H2 H3|s' s1 Hs H1].
  - by apply every_reach.
  - destruct (reach_backed ch U Hwf HU _ Hs) as [a Ha]. destruct (every_reach _ Hs) as [H4 H5].
    destruct (call_backed ch U Hwf HU _ _ _ _ _ Ha H1 H2 H3) as (a' & T & o' & _ & _ & -> & Hst).
    pose proof (every_story _ _ _ _ H5 Hst) as [H6 H7]. split; [|done]. by apply every_app.
  - destruct (reach_backed ch U Hwf HU _ Hs) as [a Ha]. destruct (every_reach _ Hs) as [H4 H5].
    destruct (destroy_backed ch U Hwf HU _ _ _ _ Ha H1) as (_ & a' & ks & _ & _ & -> & Hen).
    destruct (every_idle (tr s') ks H5) as [H6 H7]; [by eapply ending_dull|].
    split; [|done]. by apply every_app.
Qed.
End meaning.
