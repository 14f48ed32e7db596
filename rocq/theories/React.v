(** What happens when a state is asked to react, and how an event is dispatched. *)
From Verif Require Export Escape.

(** [r], at position [i], is the first of the reactions that matches. *)
Definition first_match (rs : list reaction) (e : event) (i : nat) (r : reaction) : Prop :=
  rs !! i = Some r ∧ matches (reaction_pat r) e = true ∧
  ∀ j r', j < i → rs !! j = Some r' → matches (reaction_pat r') e = false.

Lemma find_reaction_some n rs e i r : find_reaction n rs e = Some (i, r) → n ≤ i ∧ first_match rs e (i - n) r.
Proof.
  revert n. induction rs as [|r0 rs IH]; intros n H; [done|]. simpl in H. destruct (matches _ e) eqn:Hm.
  - injection H as -> ->. split; [done|]. rewrite Nat.sub_diag. split_and!; [done|done|]. intros j r' ?. lia.
  - destruct (IH _ H) as (H1 & H2 & H3 & H4). split; [lia|].
    replace (i - n) with (S (i - S n)) by lia. split_and!; [done|done|]. intros [|j] r' Hj Hr'; [by injection Hr' as <-|].
    apply (H4 j); [lia|done].
Qed.
Lemma find_reaction_none n rs e : find_reaction n rs e = None → ∀ r, r ∈ rs → matches (reaction_pat r) e = false.
Proof.
  revert n. induction rs as [|r0 rs IH]; intros n H r Hr; [by apply elem_of_nil in Hr|]. simpl in H.
  destruct (matches (reaction_pat r0) e) eqn:Hm; [done|]. apply elem_of_cons in Hr as [->|Hr]; [done|]. by eapply IH.
Qed.

(** The first thing that follows a decision. *)
Definition decides (p : nat) (c : cls) (d : decision) : okind :=
  match d with
  | DDiscard => OResult p c RDiscard
  | DForward => OResult p c RForward
  | DDefer => OResult p c RDefer
  | DTransit i _ => OTransit p c i
  | DTerminate => OTerminate p c
  | DThrow y => OThrow y
  end.
(** How reaction number [i], [r], of object [p] of class [c] goes on. *)
Definition performs {W} (U : user W) (b : option event) (p : nat) (c : cls) (e : event) (i : nat) (r : reaction) (T : list obs) : Prop :=
  match r with
  | RTransition _ d _ => ∃ T', T = Obs b (OTransit p c d) :: T'
  | RDeferral _ => ∃ T', T = Obs b (OResult p c RDefer) :: T'
  | RTermination _ => ∃ T', T = Obs b (OTerminate p c) :: T'
  | RInState _ None => ∃ T', T = Obs b (OResult p c RDiscard) :: T'
  | RInState _ (Some n) => ∃ ks k T', T = under b (OInState n e :: ks) ++ Obs b k :: T' ∧ calls ks ∧
      (k = OResult p c RDiscard ∨ ∃ y, k = OThrow y)
  | RCustom _ => ∃ ks k T' v w, T = under b (OReact p c i e :: ks) ++ Obs b k :: T' ∧ calls ks ∧
      k = decides p c (u_react U c i e v w).2
  end.

Section react.
Context {W : Type} (ch : chart) (U : user W).
Context (Hwf : wf_chart ch = true) (HU : user_ok ch U).

Lemma effect_decides t fe e p c d ks o T : effect ch t fe e (c, p) d ks o →
  (∀ q, o = Done q → ∃ T'', T = Obs (Some e) (OResult p c q) :: T'') →
  ∃ T', under (Some e) ks ++ T = Obs (Some e) (decides p c d) :: T'.
Proof. destruct 1; intros HT; try (destruct (HT _ eq_refl) as [T'' ->]); simpl; eauto. Qed.

Lemma visit_reacts s t1 b p c e t2 : seen ch U s → tr s = t1 ++ Obs b (OVisit p c e) :: t2 →
  b = Some e ∧ lives t1 (c, p) ∧
  ((∀ r, r ∈ cd_reacts (cd ch c) → matches (reaction_pat r) e = false) ∧ (∃ t3, t2 = Obs b (OResult p c RForward) :: t3) ∨
   ∃ i r, first_match (cd_reacts (cd ch c)) e i r ∧ performs U b p c e i r t2).
Proof.
  intros Hs E. destruct (every_seen ch U Hwf HU s Hs) as [Hev _]. destruct (Hev _ _ _ E) as [_ Hd]. cbn in Hd.
  destruct Hd as (Hl & _ & ks & o & T' & -> & -> & Ht & Hr). split; [done|]. split; [done|].
  assert (∀ i r, find_reaction 0 (cd_reacts (cd ch c)) e = Some (i, r) → first_match (cd_reacts (cd ch c)) e i r) as Hf.
  { intros i r H. apply find_reaction_some in H as [_ H]. by rewrite Nat.sub_0_r in H. }
  inversion Ht as [H0|i pt d act ks0 o0 H0 He|i pt ks0 o0 H0 He|i pt ks0 o0 H0 He|i pt H0|i pt n ks0 y H0 Hc|i pt ks0 v w ks' o0 H0 Hc He]; subst;
    cbn [fst snd] in *.
  - left. split; [by eapply find_reaction_none|]. destruct (Hr _ eq_refl) as [T'' ->]. by exists T''.
  - right. exists i, (RTransition pt d act). split; [by apply Hf|]. exact (effect_decides _ _ _ _ _ _ _ _ _ He Hr).
  - right. exists i, (RDeferral pt). split; [by apply Hf|]. exact (effect_decides _ _ _ _ _ _ _ _ _ He Hr).
  - right. exists i, (RTermination pt). split; [by apply Hf|]. exact (effect_decides _ _ _ _ _ _ _ _ _ He Hr).
  - right. exists i, (RInState pt None). split; [by apply Hf|]. exact (Hr _ eq_refl).
  - right. exists i, (RInState pt (Some n)). split; [by apply Hf|]. destruct Hc as [ks0 Hc|ks0 y Hc].
    + destruct (Hr _ eq_refl) as [T'' ->]. exists ks0, (OResult p c RDiscard), T''. split; [done|]. split; [done|by left].
    + exists ks0, (OThrow y), T'. split; [simpl; by rewrite under_app_, <-app_assoc|]. split; [done|]. right. eauto.
  - right. exists i, (RCustom pt). split; [by apply Hf|]. destruct (effect_decides _ _ _ _ _ _ _ _ _ He Hr) as [T'' E''].
    exists ks0, (decides p c (u_react U c i e v w).2), T'', v, w. split; [|done].
    simpl. by rewrite under_app_, <-app_assoc, E''.
Qed.

(** Who is asked, and when. *)
Lemma visit_asked s t1 b p c e t2 : seen ch U s → tr s = t1 ++ Obs b (OVisit p c e) :: t2 →
  ∃ t0 b0 k0, t1 = t0 ++ [Obs b0 k0] ∧
    ((∃ e' ls, k0 = ODispatch e' ls ∧ hd_error ls = Some c) ∨ (∃ xe, k0 = OHandle p xe) ∨
     (∃ p' c', k0 = OResult p' c' RForward ∧
        (parent ch c' = Some c ∨ parent ch c' = None ∧ is_leaf ch c = true))).
Proof.
  intros Hs E. destruct (every_seen ch U Hwf HU s Hs) as [Hev _]. destruct (Hev _ _ _ E) as [_ Hd]. cbn in Hd.
  destruct Hd as (_ & (t0 & [b0 k0] & -> & Ha) & _). exists t0, b0, k0. split; [done|]. cbn in Ha.
  destruct k0; try done; subst; eauto 10. destruct Ha as [-> Ha]. eauto 10.
Qed.
Lemma result_outward s t1 b p c t2 q : seen ch U s → tr s = t1 ++ Obs b (OResult p c RForward) :: t2 →
  parent ch c = Some q → ∃ e p' t3, b = Some e ∧ t2 = Obs b (OVisit p' q e) :: t3 ∧ lives (t1 ++ [Obs b (OResult p c RForward)]) (q, p').
Proof.
  intros Hs E Hp. destruct (every_seen ch U Hwf HU s Hs) as [Hev _]. destruct (Hev _ _ _ E) as [_ Hd]. cbn in Hd.
  destruct (Hd eq_refl q Hp) as (e & p' & T' & -> & ->). exists e, p', T'. split; [done|]. split; [done|].
  destruct (Hev (t1 ++ [Obs (Some e) (OResult p c RForward)]) (Obs (Some e) (OVisit p' q e)) T') as [_ [Hl _]]; [|done].
  rewrite E. by rewrite <-app_assoc.
Qed.

(** ** The action of a declared transition *)
Lemma declared_action s t1 b p c e d t2 ks i act pt : seen ch U s →
  tr s = t1 ++ Obs b (OVisit p c e) :: Obs b (OTransit p c d) :: t2 →
  first_match (cd_reacts (cd ch c)) e i (RTransition pt d act) →
  spans b t2 ks (Some (OResult p c RDiscard)) → ∃ cx, actions ks = act_of cx act e.
Proof.
  intros Hs E Hf Hsp. destruct (every_seen ch U Hwf HU s Hs) as [Hev _]. destruct (Hev _ _ _ E) as [_ Hd]. cbn in Hd.
  destruct Hd as (Hl & _ & k0 & o & T' & ET & -> & Ht & Hr).
  assert (∀ i' r', find_reaction 0 (cd_reacts (cd ch c)) e = Some (i', r') → i' = i ∧ r' = RTransition pt d act) as Hff.
  { intros i' r' H. apply find_reaction_some in H as [_ H]. rewrite Nat.sub_0_r in H. destruct H as (H1 & H2 & H3), Hf as (F1 & F2 & F3).
    destruct (decide (i' < i)) as [Hlt|]; [specialize (F3 _ _ Hlt H1); congruence|].
    destruct (decide (i < i')) as [Hlt|]; [specialize (H3 _ _ Hlt F1); congruence|].
    assert (i' = i) as -> by lia. split; congruence. }
  inversion Ht as [H0|i' pt' d' act' ks0 o0 H0 He|i' pt' ks0 o0 H0 He|i' pt' ks0 o0 H0 He|i' pt' H0|i' pt' n ks0 y H0 Hc|i' pt' ks0 v w ks' o0 H0 Hc He]; subst;
    cbn [fst snd] in *;
    try (match goal with H : find_reaction _ _ _ = Some _ |- _ => destruct (Hff _ _ H) as [? ?] end; simplify_eq).
  - destruct Hf as (F1 & F2 & _). apply elem_of_list_lookup_2 in F1.
    pose proof (find_reaction_none _ _ _ H0 _ F1). congruence.
  - inversion He as [| | | |d' act' ks1 Hg|d' act' y ks1 Hst| |]; subst; injection ET as ET; try subst t2.
    + destruct (Hr _ eq_refl) as [T'' ->].
      destruct (spans_unique _ _ _ _ _ _ Hsp (goes_spans (Some e) _ _ (Some e) (OResult p c RDiscard) T'' Hg eq_refl)) as [-> _].
      destruct Hg as [_ Hg]. apply (transit_plan_transition ch Hwf) in Hg as (cc & z & _ & _ & _ & _ & _ & HT).
      rewrite <-actions_lifes. by eapply transition_actions.
    + destruct (stops_spans ch (Some e) _ _ _ T' Hst) as (k1 & r & Hsp' & _).
      by destruct (spans_unique _ _ _ _ _ _ Hsp Hsp') as [_ ?].
Qed.

(** ** Dispatching an event *)
(** Entries made while an event is dispatched, other than the call of unconsumed_event(). *)
Definition innerk (k : okind) : bool :=
  match k with ODispatch _ _ | ODone | OUnconsumed _ | OTake _ | OProcess _ | ODefer _ | ORefused (ADefer _) | OReset => false | _ => true end.
Definition forwards (T : list obs) : Prop := ∀ p c r, OResult p c r ∈ map ob T → r = RForward.
Definition leaves_asked (T : list obs) : list cls := map fst (leaf_visits ch (map ob T)).

Lemma quiet_innerk ks : Forall (λ k, quiet k = true) ks → Forall (λ k, innerk k = true) ks.
Proof. intros H. eapply Forall_impl; [exact H|]. by intros []. Qed.
Lemma calls_innerk ks : calls ks → Forall (λ k, innerk k = true) ks.
Proof. intros H. eapply Forall_impl; [exact H|]. by intros [] []. Qed.
Lemma called_innerk ks y : called ks y → Forall (λ k, innerk k = true) ks.
Proof. destruct 1; [by apply calls_innerk|]. apply Forall_app. split; [by apply calls_innerk|by repeat constructor]. Qed.
Lemma goes_innerk P ks : goes P ks → Forall (λ k, innerk k = true) ks.
Proof. intros [H _]. by apply quiet_innerk. Qed.
Lemma stops_innerk P y ks : stops ch P y ks → Forall (λ k, innerk k = true) ks.
Proof.
  intros (k1 & g & k2 & r & -> & H1 & H2 & _ & _ & Hf). rewrite !Forall_app.
  split_and!; [by apply quiet_innerk|by destruct g as [[]|]; repeat constructor|].
  constructor; [done|by apply quiet_innerk].
Qed.
Lemma effect_innerk t fe e x d ks o : effect ch t fe e x d ks o → Forall (λ k, innerk k = true) ks.
Proof.
  destruct 1; try (by repeat constructor); (constructor; [done|]); first [by eapply goes_innerk|by eapply stops_innerk].
Qed.
Lemma turn_innerk t fe e x ks o : turn ch U t fe e x ks o → Forall (λ k, innerk k = true) ks.
Proof.
  destruct 1; try (by repeat constructor); try (by eapply effect_innerk).
  - constructor; [done|]. by eapply called_innerk.
  - constructor; [done|]. apply Forall_app. split; [by apply calls_innerk|by eapply effect_innerk].
Qed.
Lemma search_innerk t fe e x ks o : search ch U t fe e x ks o → Forall (λ k, innerk k = true) ks.
Proof.
  induction 1 as [x ks r Ht _|x ks y Ht|x ks Ht _|x ks z ks' o Ht _ _ _ IH];
    (constructor; [done|]); pose proof (turn_innerk _ _ _ _ _ _ Ht); rewrite ?Forall_app, ?Forall_cons; auto.
Qed.
Lemma handled_innerk t0 t b cur st y T o : handled ch U t0 t b cur st y T o → Forall (λ o, innerk (ob o) = true) T.
Proof.
  destruct 1 as [|xe x ks _ _ _ H _ _|xe x ks r _ _ _ H _|xe x ks y' _ _ _ H]; [constructor|..];
    (apply Forall_app; split; [apply Forall_map; constructor; [done|by eapply search_innerk]|by repeat constructor]).
Qed.
Lemma handling_innerk t0 t b cur st y T o : handling ch U t0 t b cur st y T o → Forall (λ o, innerk (ob o) = true) T.
Proof. intros [T' o' H]. apply Forall_app. split; [by repeat constructor|]. by eapply handled_innerk. Qed.

Lemma forwards_nil : forwards [].
Proof. intros p c r H. by apply elem_of_nil in H. Qed.
Lemma forwards_app T T' : forwards T → forwards T' → forwards (T ++ T').
Proof. intros H1 H2 p c r. rewrite map_app, elem_of_app. intros [H|H]; eauto. Qed.
Lemma effect_results t fe e x d ks o p c r : effect ch t fe e x d ks o → OResult p c r ∉ ks.
Proof.
  assert (∀ ks, Forall (λ k, dull k = true) ks → OResult p c r ∉ ks) as Hd.
  { intros ks0 H Hin. rewrite Forall_forall in H. by specialize (H _ Hin). }
  destruct 1; try (by intros ?%elem_of_nil); (intros [?|Hin]%elem_of_cons; [done|]);
    first [by apply elem_of_nil in Hin|revert Hin; apply Hd; first [by eapply goes_dull|by eapply stops_dull]].
Qed.
Lemma turn_results t fe e x ks o p c r : turn ch U t fe e x ks o → OResult p c r ∉ ks.
Proof.
  destruct 1; try (by intros ?%elem_of_nil); try (by eapply effect_results).
  - intros [?|Hin]%elem_of_cons; [done|]. revert Hin. by eapply called_no.
  - rewrite elem_of_cons, elem_of_app. intros [?|[Hin|Hin]]; [done| |].
    + revert Hin. by apply falling_in, calls_falling.
    + revert Hin. by eapply effect_results.
Qed.
(** All results of a search but the last are RForward. *)
Lemma search_results t fe e x ks o : search ch U t fe e x ks o →
  match o with
  | Done r => ∃ ks' p c, ks = ks' ++ [OResult p c r] ∧ ∀ p c r, OResult p c r ∈ ks' → r = RForward
  | Threw _ => ∀ p c r, OResult p c r ∈ ks → r = RForward
  end.
Proof.
  induction 1 as [x ks r Ht Hr|x ks y Ht|x ks Ht Hp|x ks z ks' o Ht Hp Hz _ IH].
  - exists (OVisit x.2 x.1 e :: ks), x.2, x.1. split; [done|]. intros p c r' [?|Hin]%elem_of_cons; [done|].
    exfalso. by eapply turn_results.
  - intros p c r' [?|Hin]%elem_of_cons; [done|]. exfalso. by eapply turn_results.
  - exists (OVisit x.2 x.1 e :: ks), x.2, x.1. split; [done|]. intros p c r' [?|Hin]%elem_of_cons; [done|].
    exfalso. by eapply turn_results.
  - assert (∀ p c r, OResult p c r ∈ OVisit x.2 x.1 e :: ks ++ [OResult x.2 x.1 RForward] → r = RForward) as Hf.
    { intros p c r' [?|[Hin|Hin%elem_of_list_singleton]%elem_of_app]%elem_of_cons; [done| |by injection Hin].
      exfalso. by eapply turn_results. }
    destruct o as [r|y].
    + destruct IH as (k0 & p & c & -> & IH). exists (OVisit x.2 x.1 e :: ks ++ OResult x.2 x.1 RForward :: k0), p, c.
      split; [simpl; by rewrite <-app_assoc|]. intros p' c' r'. rewrite cons_middle, app_assoc, app_comm_cons, elem_of_app.
      intros [H|H]; eauto.
    + intros p c r. rewrite cons_middle, app_assoc, app_comm_cons, elem_of_app. intros [H|H]; eauto.
Qed.

(** [T1] is what happens until the first exception, if any; [T2] starts with the exception. *)
Definition dispatched (e : event) (ls : list cls) (T1 T2 : list obs) (o : outcome) : Prop :=
  Forall (λ o, ob_trig o = Some e ∧ innerk (ob o) = true ∧ still (ob o) = true ∧ is_throw (ob o) = false) T1 ∧
  leaves_asked T1 `prefix_of` ls ∧ (ls = [] → T1 = []) ∧
  ((T2 = [] ∧ o = Done RForward ∧ forwards T1 ∧ leaves_asked T1 = ls) ∨
   (∃ T0 p c r, T2 = [] ∧ o = Done r ∧ r ≠ RForward ∧ T1 = T0 ++ [Obs (Some e) (OResult p c r)] ∧ forwards T0) ∨
   (∃ y T3, T2 = Obs (Some e) (OThrow y) :: T3 ∧ forwards T1 ∧ Forall (λ o, innerk (ob o) = true) T3 ∧ o ≠ Done RForward ∧ ls ≠ [])).

Lemma leaves_asked_app T T' : leaves_asked (T ++ T') = leaves_asked T ++ leaves_asked T'.
Proof. unfold leaves_asked. by rewrite map_app, leaf_visits_app, map_app. Qed.
Lemma under_forall (P : obs → Prop) b ks : Forall (λ k, P (Obs b k)) ks → Forall P (under b ks).
Proof. apply Forall_map. Qed.
Lemma dispatch_shape e t ls T o : Forall (λ c, is_leaf ch c = true) ls → dispatch ch U e t ls T o →
  ∃ T1 T2, T = T1 ++ T2 ∧ dispatched e ls T1 T2 o.
Proof.
  assert (∀ ks k1 k2, ks = k1 ++ k2 → Forall (λ k, innerk k = true) ks → Forall (λ k, still k = true) ks → nothrow k1 →
    Forall (λ o, ob_trig o = Some e ∧ innerk (ob o) = true ∧ still (ob o) = true ∧ is_throw (ob o) = false) (under (Some e) k1)) as Hall.
  { intros ks k1 k2 -> [H1 _]%Forall_app [H2 _]%Forall_app H3. apply under_forall. unfold nothrow in H3.
    rewrite Forall_forall in *. intros k Hk. split_and!; [done|by apply H1|by apply H2|by apply H3]. }
  intros Hls Hd. induction Hd as [t|t x ls ks T o Hl Hs Hd IH|t x ls ks r Hl Hs Hr|t x ls ks y T o Hl Hs Hh].
  - exists [], []. split; [done|]. split_and!; [constructor|done|done|]. left. split_and!; [done|done|apply forwards_nil|done].
  - apply Forall_cons in Hls as [Hx Hls]. destruct (IH Hls) as (T1 & T2 & -> & H1 & H2 & H3 & H4).
    exists (under (Some e) ks ++ T1), T2. split; [by rewrite <-app_assoc|].
    assert (leaves_asked (under (Some e) ks) = [x.1]) as Ela.
    { unfold leaves_asked. by rewrite map_ob_under, (search_leaf ch U Hwf _ _ _ _ _ _ Hs Hx). }
    assert (forwards (under (Some e) ks)) as Hfw.
    { destruct (search_results _ _ _ _ _ _ Hs) as (k0 & p & c & -> & Hf). intros p' c' r'. rewrite map_ob_under, elem_of_app.
      intros [H|H%elem_of_list_singleton]; [eauto|]. by injection H. }
    split_and!.
    + apply Forall_app. split; [|done]. eapply (Hall ks ks []); [by rewrite app_nil_r|by eapply search_innerk|by eapply search_still|by eapply search_nothrow].
    + rewrite leaves_asked_app, Ela. by apply prefix_cons.
    + done.
    + destruct H4 as [(-> & -> & H5 & H6)|[(T0 & p & c & r & -> & -> & H5 & -> & H6)|(y & T3 & -> & H5 & H6)]].
      * left. split_and!; [done|done|by apply forwards_app|]. by rewrite leaves_asked_app, Ela, H6.
      * right. left. exists (under (Some e) ks ++ T0), p, c, r. split_and!; try done; [by rewrite app_assoc|by apply forwards_app].
      * right. right. exists y, T3. split_and!; try done; [by apply forwards_app|apply H6|apply H6].
  - exists (under (Some e) ks), []. split; [by rewrite app_nil_r|]. apply Forall_cons in Hls as [Hx _].
    destruct (search_results _ _ _ _ _ _ Hs) as (k0 & p & c & E & Hf). split_and!.
    + eapply (Hall ks ks []); [by rewrite app_nil_r|by eapply search_innerk|by eapply search_still|by eapply search_nothrow].
    + unfold leaves_asked. rewrite map_ob_under, (search_leaf ch U Hwf _ _ _ _ _ _ Hs Hx). by apply prefix_cons, prefix_nil.
    + done.
    + right. left. exists (under (Some e) k0), p, c, r. split_and!; try done; [by rewrite E, under_app_|].
      intros p' c' r'. rewrite map_ob_under. apply Hf.
  - destruct (search_thrown _ _ _ _ _ _ _ _ Hs) as (k1 & k2 & E & Hn & Hf & _). apply Forall_cons in Hls as [Hx _].
    exists (under (Some e) k1), (Obs (Some e) (OThrow y) :: under (Some e) k2 ++ T). split.
    { rewrite E, under_app_, <-app_assoc. done. }
    assert (Forall (λ k, innerk k = true) ks) as Hin by by eapply search_innerk.
    split_and!.
    + eapply Hall; [exact E|done|by eapply search_still|done].
    + pose proof (search_leaf ch U Hwf _ _ _ _ _ _ Hs Hx) as Elv. unfold leaves_asked. rewrite map_ob_under.
      rewrite E, leaf_visits_app in Elv. destruct (leaf_visits ch k1) as [|z l] eqn:Ek; [apply prefix_nil|].
      simpl in Elv. injection Elv as -> Elv. apply app_eq_nil in Elv as [-> _]. simpl. by apply prefix_cons, prefix_nil.
    + done.
    + right. right. exists y, (under (Some e) k2 ++ T). split_and!; [done| | | |].
      * intros p c r. rewrite map_ob_under. intros Hk. eapply (search_results _ _ _ _ _ _ Hs). rewrite E, elem_of_app. by left.
      * apply Forall_app. split; [|by eapply handling_innerk]. apply under_forall. rewrite E in Hin.
        apply Forall_app in Hin as [_ Hin]. by apply Forall_cons in Hin as [].
      * intros ->. inversion Hh as [T0 o Hh0]. inversion Hh0.
      * done.
Qed.

Lemma ending_end t fe b ks : ending ch t fe ks → Forall (λ o, ob o ≠ ODone ∧ ∀ e, ob o ≠ OUnconsumed e) (under b ks).
Proof.
  intros (k & -> & Hq & _). apply under_forall. apply Forall_app. split; [|by repeat constructor].
  eapply Forall_impl; [exact Hq|]. by intros [].
Qed.
Lemma innerk_end T : Forall (λ o, innerk (ob o) = true) T → Forall (λ o, ob o ≠ ODone ∧ ∀ e, ob o ≠ OUnconsumed e) T.
Proof. intros H. eapply Forall_impl; [exact H|]. intros [b []]; done. Qed.
(** The dispatching of one event, from ODispatch to ODone. *)
Lemma event_shape s t1 b e ls t2 : seen ch U s → tr s = t1 ++ Obs b (ODispatch e ls) :: t2 →
  b = Some e ∧ innermost ch t1 ls ∧ ∃ T1 T2 T3, t2 = T1 ++ T2 ++ Obs None ODone :: T3 ∧
  Forall (λ o, ob_trig o = Some e ∧ innerk (ob o) = true ∧ still (ob o) = true ∧ is_throw (ob o) = false) T1 ∧
  leaves_asked T1 `prefix_of` ls ∧ (ls = [] → T1 = []) ∧
  ((∃ T0 p c r, T2 = [] ∧ r ≠ RForward ∧ T1 = T0 ++ [Obs (Some e) (OResult p c r)] ∧ forwards T0) ∨
   (∃ ks y, T2 = under (Some e) (OUnconsumed e :: ks) ∧ called ks y ∧ forwards T1 ∧ leaves_asked T1 = ls) ∨
   (∃ y T4, T2 = Obs (Some e) (OThrow y) :: T4 ∧ ls ≠ [] ∧ forwards T1 ∧ Forall (λ o, ob o ≠ ODone ∧ ∀ e, ob o ≠ OUnconsumed e) T4)).
Proof.
  intros Hs E. destruct (every_seen ch U Hwf HU s Hs) as [Hev _]. destruct (Hev _ _ _ E) as [_ Hd]. cbn in Hd.
  destruct Hd as (Ta & r & Tb & Eo & Hone).
  assert (∀ ls', innermost ch t1 ls' → Forall (λ c, is_leaf ch c = true) ls') as Hlf.
  { intros ls' Hin. apply Forall_forall. intros c Hc. by apply Hin in Hc as []. }
  inversion Hone as [ls' T r' Hin Hd Hr|ls' T ks y Hin Hd Hc|ls' T y ks Hin Hd Hen]; subst;
    injection Eo as -> -> ->; (split; [done|]); (split; [done|]);
    destruct (dispatch_shape _ _ _ _ _ (Hlf _ Hin) Hd) as (T1 & T2 & -> & H1 & H2 & H3 & H4).
  - exists T1, T2, Tb. split; [by rewrite <-!app_assoc|]. split_and!; try done.
    destruct H4 as [(_ & ? & _)|[(T0 & p & c & r'' & -> & [= <-] & H5 & H6 & H7)|(y & T3 & -> & H5 & H6 & _ & H8)]]; [congruence| |].
    + left. by exists T0, p, c, r'.
    + right. right. exists y, T3. split_and!; [done|done|done|by apply innerk_end].
  - destruct H4 as [(-> & _ & H5 & H6)|[(T0 & p & c & r'' & -> & [= <-] & H5 & _)|(y' & T3 & _ & _ & _ & ? & _)]]; [|done|done].
    exists T1, (under (Some e) (OUnconsumed e :: ks)), Tb. split; [rewrite app_nil_r; simpl; rewrite <-app_assoc; simpl; by rewrite <-app_assoc|].
    split_and!; try done. right. left. by exists ks, y.
  - destruct H4 as [(_ & ? & _)|[(T0 & p & c & r'' & _ & ? & _)|(y' & T3 & -> & H5 & H6 & _ & H8)]]; [done|done|].
    exists T1, (Obs (Some e) (OThrow y') :: T3 ++ under (Some e) ks), Tb. split; [rewrite <-!app_assoc; simpl; by rewrite <-!app_assoc|].
    split_and!; try done. right. right. exists y', (T3 ++ under (Some e) ks). split_and!; [done|done|done|].
    apply Forall_app. split; [by apply innerk_end|by eapply ending_end].
Qed.
End react.
