(** What transitions, terminations and the construction of the initial state do. *)
From Verif Require Export Seen.

(** ** Vocabulary *)
Definition removal (k : okind) : bool := match k with OExit _ _ | ODtor _ _ => true | _ => false end.
Definition is_action (k : okind) : bool := match k with OAction _ _ _ => true | _ => false end.
Definition is_exit (k : okind) : bool := match k with OExit _ _ => true | _ => false end.
(** The exit() and destructor calls, and the transition actions, in order. *)
Definition removals (ks : list okind) : list okind := filter (λ k, removal k = true) ks.
Definition actions (ks : list okind) : list okind := filter (λ k, is_action k = true) ks.
(** The objects constructed, in order. *)
Definition built (ks : list okind) : list obj :=
  omap (λ k, match k with OCtor p c => Some (c, p) | _ => None end) ks.
Definition threw (ks : list okind) : Prop := ∃ y, OThrow y ∈ ks.
(** What entering [d] leads to; [entered] are the classes entered. *)
Definition reaches (ch : chart) (d : init) (entered : cls → Prop) (ks : list okind) : Prop :=
  match d with
  | IState c => entered c
  | IShallow c => ∃ h, OHistS c h ∈ ks ∧ region ch h = region ch c ∧ entered h
  | IDeep c => ∃ l, OHistD c l ∈ ks ∧ (∃ h, region ch h = region ch c ∧ within ch h l) ∧ entered l
  end.

(** ** Lists *)
Lemma lifes_app ks ks' : lifes (ks ++ ks') = lifes ks ++ lifes ks'.
Proof. apply filter_app. Qed.
Lemma lifes_cons k ks : is_life k = true → lifes (k :: ks) = k :: lifes ks.
Proof. intros H. unfold lifes. by rewrite filter_cons_True. Qed.
Lemma elem_lifes k ks : is_life k = true → k ∈ lifes ks ↔ k ∈ ks.
Proof. intros H. unfold lifes. rewrite elem_of_list_filter. tauto. Qed.
Lemma filter_lifes (P : okind → bool) ks : (∀ k, P k = true → is_life k = true) →
  filter (λ k, P k = true) (lifes ks) = filter (λ k, P k = true) ks.
Proof.
  intros H. induction ks as [|k ks IH]; [done|]. unfold lifes in *. rewrite (filter_cons _ k ks), (filter_cons _ k ks).
  repeat case_decide; rewrite ?filter_cons; repeat case_decide; rewrite ?IH; try done.
  exfalso. naive_solver.
Qed.
Lemma removals_lifes ks : removals (lifes ks) = removals ks.
Proof. apply filter_lifes. by intros []. Qed.
Lemma actions_lifes ks : actions (lifes ks) = actions ks.
Proof. apply filter_lifes. by intros []. Qed.
Lemma removals_app ks ks' : removals (ks ++ ks') = removals ks ++ removals ks'.
Proof. apply filter_app. Qed.
Lemma actions_app ks ks' : actions (ks ++ ks') = actions ks ++ actions ks'.
Proof. apply filter_app. Qed.
Lemma built_app ks ks' : built (ks ++ ks') = built ks ++ built ks'.
Proof. apply omap_app. Qed.
Lemma built_filter (P : okind → bool) ks : (∀ p c, P (OCtor p c) = true) →
  built (filter (λ k, P k = true) ks) = built ks.
Proof.
  intros H. induction ks as [|k ks IH]; [done|]. rewrite filter_cons. case_decide as Hk.
  - simpl. by rewrite IH.
  - rewrite IH. destruct k; simpl; try done. by rewrite H in Hk.
Qed.
Lemma built_lifes ks : built (lifes ks) = built ks.
Proof. by apply built_filter. Qed.
Lemma elem_built x ks : x ∈ built ks ↔ OCtor x.2 x.1 ∈ ks.
Proof.
  unfold built. rewrite elem_of_list_omap. split.
  - intros ([] & Hin & [= <-]). done.
  - intros H. eexists. split; [exact H|]. by destruct x.
Qed.
Lemma filter_none (P : okind → bool) ks : Forall (λ k, P k = false) ks → filter (λ k, P k = true) ks = [].
Proof. intros H. induction H as [|k ks Hk _ IH]; [done|]. rewrite filter_cons_False; [done|]. by rewrite Hk. Qed.
Lemma filter_all (P : okind → bool) ks : Forall (λ k, P k = true) ks → filter (λ k, P k = true) ks = ks.
Proof. intros H. induction H as [|k ks Hk _ IH]; [done|]. rewrite filter_cons_True; [by rewrite IH|done]. Qed.
Lemma built_none ks : Forall (λ k, ∀ p c, k ≠ OCtor p c) ks → built ks = [].
Proof. intros H. induction H as [|k ks Hk _ IH]; [done|]. simpl. destruct k; try done. by destruct (Hk p c). Qed.

Lemma exits_removal fe L : Forall (λ k, removal k = true) (exits fe L).
Proof. apply Forall_forall. intros k (y & _ & [->|[_ ->]])%exits_elem; done. Qed.
Lemma elem_exits_dtor y fe L : ODtor y.2 y.1 ∈ exits fe L ↔ y ∈ L.
Proof.
  split.
  - intros (z & Hz & [[= H1 H2]|[_ ?]])%exits_elem; [|done]. destruct y, z. simpl in *. congruence.
  - intros H. unfold exits. apply elem_of_list_In, in_flat_map. exists y. split; [by apply elem_of_list_In|].
    apply in_or_app. right. by left.
Qed.
Lemma elem_exits_exit y fe L : OExit y.2 y.1 ∈ exits fe L → y ∈ L.
Proof. intros (z & Hz & [?|[_ [= H1 H2]]])%exits_elem; [done|]. destruct y, z. simpl in *. congruence. Qed.
Lemma removals_exits fe L : removals (exits fe L) = exits fe L.
Proof. apply filter_all, exits_removal. Qed.
Lemma actions_exits fe L : actions (exits fe L) = [].
Proof. apply filter_none. eapply Forall_impl; [apply exits_removal|]. by intros []. Qed.
Lemma built_exits fe L : built (exits fe L) = [].
Proof. apply built_none. eapply Forall_impl; [apply exits_removal|]. by intros []. Qed.
Lemma removals_act x act e : removals (act_of x act e) = [].
Proof. by destruct act. Qed.
Lemma built_act x act e : built (act_of x act e) = [].
Proof. by destruct act. Qed.
Lemma actions_act x act e : actions (act_of x act e) = act_of x act e.
Proof. by destruct act. Qed.

Lemma fading_built ks : Forall (λ k, fading k = true) (lifes ks) → built ks = [].
Proof. intros H. rewrite <-built_lifes. apply built_none. eapply Forall_impl; [exact H|]. by intros []. Qed.
Lemma fading_no k ks : is_life k = true → fading k = false → Forall (λ k, fading k = true) (lifes ks) → k ∉ ks.
Proof.
  intros H1 H2 H Hin. apply (elem_lifes k ks H1) in Hin. rewrite Forall_forall in H. specialize (H _ Hin). congruence.
Qed.
Lemma quiet_no_throw ks : Forall (λ k, quiet k = true) ks → ¬ threw ks.
Proof. intros H [y Hy]. rewrite Forall_forall in H. by specialize (H _ Hy). Qed.

Lemma StronglySorted_prefix {A} (R : A → A → Prop) l l' : StronglySorted R (l ++ l') → StronglySorted R l.
Proof.
  induction l as [|x l IH]; [constructor|]. simpl. inversion 1 as [|? ? H1 H2]; subst. constructor; [by apply IH|].
  by apply Forall_app in H2 as [].
Qed.

Section orderly.
Context (ch : chart).

Lemma orderly_prefix t t' : orderly ch (t ++ t') → orderly ch t.
Proof. intros H t1 b k t2 ->. eapply H. by rewrite <-app_assoc. Qed.
Lemma orderly_rev_ind (P : list obs → Prop) : P [] →
  (∀ t b k, orderly ch t → P t → entry_ok ch t k → P (t ++ [Obs b k])) → ∀ t, orderly ch t → P t.
Proof.
  intros H1 H2 t. induction t as [|[b k] t IH] using rev_ind; intros Ho; [done|].
  pose proof (orderly_prefix _ _ Ho) as Ho'. apply H2; [done|by apply IH|]. by eapply (Ho t b k []).
Qed.
Lemma orderly_outer t x q : orderly ch t → lives t x → parent ch x.1 = Some q → ∃ p, lives t (q, p).
Proof.
  intros Ho. revert x. pattern t. revert t Ho. apply orderly_rev_ind; [by intros x [?%elem_of_nil _]|].
  intros t b k Ho IH Hk x Hx Hp.
  assert ((∀ p c, k ≠ OCtor p c) → (∀ p c, k ≠ ODtor p c) → ∃ p, lives (t ++ [Obs b k]) (q, p)) as Hgo.
  { intros H1 H2. apply lives_snoc in Hx; [|done..]. destruct (IH x Hx Hp) as [p H]. exists p. by apply lives_snoc. }
  destruct k as [p c| | |p c| | | | | | | | | | | | | | | | | | | | | | | | | |]; try by apply Hgo.
  - destruct Hk as (H1 & _ & H2). rewrite lives_ctor in Hx by done. destruct Hx as [Hx| ->].
    + destruct (IH x Hx Hp) as [p' H]. exists p'. rewrite lives_ctor by done. by left.
    + destruct (H2 q Hp) as [p' H]. exists p'. rewrite lives_ctor by done. by left.
  - destruct Hk as [_ Hk]. apply lives_dtor in Hx as [Hx Hne]. destruct (IH x Hx Hp) as [p' H]. exists p'.
    apply lives_dtor. split; [done|]. intros [= -> ->]. by apply (Hk x).
Qed.
Lemma orderly_outers t x q : orderly ch t → lives t x → encloses ch (Some q) x.1 → ∃ p, lives t (q, p).
Proof.
  intros Ho Hx He. remember (Some q) as o eqn:Eo. remember x.1 as c eqn:Ec. revert x Hx Ec.
  induction He as [c|o c q' Hp He IH]; intros x Hx ->.
  - by eapply orderly_outer.
  - destruct (orderly_outer t x q' Ho Hx Hp) as [p Hp']. by apply (IH Eo (q', p)).
Qed.
Lemma orderly_region t x y : orderly ch t → lives t x → lives t y → region ch x.1 = region ch y.1 → x = y.
Proof.
  intros Ho. revert x y. pattern t. revert t Ho. apply orderly_rev_ind; [by intros x y [?%elem_of_nil _]|].
  intros t b k Ho IH Hk x y Hx Hy Hr.
  assert ((∀ p c, k ≠ OCtor p c) → (∀ p c, k ≠ ODtor p c) → x = y) as Hgo.
  { intros H1 H2. apply lives_snoc in Hx; [|done..]. apply lives_snoc in Hy; [|done..]. by apply IH. }
  destruct k as [p c| | |p c| | | | | | | | | | | | | | | | | | | | | | | | | |]; try by apply Hgo.
  - destruct Hk as (H1 & H2 & _). rewrite lives_ctor in Hx, Hy by done.
    destruct Hx as [Hx| ->], Hy as [Hy| ->]; try done.
    + by apply IH.
    + by destruct (H2 x Hx).
    + by destruct (H2 y Hy).
  - apply lives_dtor in Hx as [Hx _]. apply lives_dtor in Hy as [Hy _]. by apply IH.
Qed.
(** Nothing inside a state is alive when it is left or destroyed. *)
Lemma orderly_inside t t1 b k t2 p c : orderly ch t → t = t1 ++ Obs b k :: t2 → k = OExit p c ∨ k = ODtor p c →
  ∀ x, lives t1 x → ¬ encloses ch (Some c) x.1.
Proof.
  intros Ho -> Hk x Hx He. assert (orderly ch t1) as Ho1 by by eapply orderly_prefix.
  assert (lives t1 (c, p) ∧ ∀ x, lives t1 x → parent ch x.1 ≠ Some c) as [_ Hn].
  { specialize (Ho _ _ _ _ eq_refl). by destruct Hk as [->| ->]. }
  remember (Some c) as o eqn:Eo in He. remember x.1 as cx eqn:Ec in He. revert x Hx Ec.
  induction He as [cx|o cx q' Hp He IH]; intros x Hx ->.
  - by apply (Hn x).
  - destruct (orderly_outer t1 x q' Ho1 Hx Hp) as [p' Hp']. by apply (IH Eo (q', p')).
Qed.
End orderly.

Section plans.
Context {W : Type} (ch : chart) (U : user W) (Hwf : wf_chart ch = true).

(** ** Entering *)
Lemma built_ctors n cs : map fst (built (ctors n cs)) = cs ∧ ∀ y, y ∈ built (ctors n cs) → n ≤ y.2.
Proof.
  revert n. induction cs as [|c cs IH]; intros n; [split; [done|]; by intros y ?%elem_of_nil|].
  destruct (IH (n + 1)) as [H1 H2]. simpl. change (omap _ (ctors (n + 1) cs)) with (built (ctors (n + 1) cs)). split.
  - by rewrite H1.
  - intros y [->|Hy]%elem_of_cons; simpl; [lia|]. specialize (H2 y Hy). lia.
Qed.
Lemma ctors_ctor n cs : Forall (λ k, ∃ p c, k = OCtor p c) (ctors n cs).
Proof. revert n. induction cs as [|c cs IH]; intros n; constructor; eauto. Qed.
Lemma filter_lookup (P : okind → bool) (ks : list okind) : (∀ k, P k = true → is_lookup k = false) →
  filter (λ k, P k = true) (filter (λ k, is_lookup k = false) ks) = filter (λ k, P k = true) ks.
Proof.
  intros H. induction ks as [|k ks IH]; [done|]. rewrite (filter_cons _ k ks), (filter_cons _ k ks).
  repeat case_decide; rewrite ?filter_cons; repeat case_decide; rewrite ?IH; try done.
  exfalso. naive_solver.
Qed.
Record entering (n : nat) (path : list cls) (d : init) (ks : list okind) : Prop := {
  et_removals : removals ks = [];
  et_actions : actions ks = [];
  et_sorted : StronglySorted (λ y z, exit_before ch z y) (map fst (built ks));
  et_fresh y : y ∈ built ks → n ≤ y.2;
  et_path c : c ∈ path → ∃ p, (c, p) ∈ built ks;
  et_reach : reaches ch d (λ c, ∃ p, (c, p) ∈ built ks) ks;
  et_first : ∃ y, y ∈ built ks ∧ region ch y.1 = region ch (first path d);
  et_outer y q : y ∈ built ks → parent ch y.1 = Some q →
    region ch y.1 = region ch (first path d) ∨ ∃ p, (q, p) ∈ built ks;
  et_regions y k : y ∈ built ks → k < nreg ch y.1 → ∃ z, z ∈ built ks ∧ region ch z.1 = (Some y.1, k) }.

Lemma builds_entering n path d cs ks : builds ch n path d cs ks → valid ch path d → entering n path d ks.
Proof.
  intros Hb Hv. pose proof (builds_ctors ch _ _ _ _ _ Hb) as Hc.
  assert (built ks = built (ctors n cs)) as Eb.
  { rewrite <-Hc. clear. induction ks as [|k ks IH]; [done|]. rewrite filter_cons. case_decide as Hk; simpl.
    - by rewrite IH.
    - rewrite IH. by destruct k. }
  destruct (built_ctors n cs) as [B1 B2]. rewrite <-Eb in B1, B2.
  assert (∀ c, c ∈ cs ↔ ∃ p, (c, p) ∈ built ks) as Hcs.
  { intros c. rewrite <-B1, elem_of_list_fmap. split.
    - intros ([c' p] & -> & H). by exists p.
    - intros [p H]. by exists (c, p). }
  destruct (builds_filled ch Hwf _ _ _ _ _ Hb Hv) as [F1 F2 F3 F4 F5]. split.
  - unfold removals. rewrite <-filter_lookup by (by intros []). rewrite Hc. apply filter_none.
    eapply Forall_impl; [apply ctors_ctor|]. by intros k (p & c & ->).
  - unfold actions. rewrite <-filter_lookup by (by intros []). rewrite Hc. apply filter_none.
    eapply Forall_impl; [apply ctors_ctor|]. by intros k (p & c & ->).
  - rewrite B1. by eapply builds_sorted.
  - done.
  - intros c Hin. apply Hcs. destruct (builds_path ch _ _ _ _ _ Hb) as (n' & cs' & ks' & H1 & _). apply H1, elem_of_app. by left.
  - destruct (builds_path ch _ _ _ _ _ Hb) as (n' & cs' & ks' & H1 & H2 & Hb').
    assert (∀ c, c ∈ cs' → ∃ p, (c, p) ∈ built ks) as H3.
    { intros c Hin. apply Hcs, H1, elem_of_app. by right. }
    inversion Hb' as [|? c cs0 ks0 _|? c h cs0 ks0 Hr Hb0|? c l cs0 ks0 He Hr Hb0]; subst; simpl.
    + apply H3. by left.
    + exists h. split_and!; [apply H2; by left|done|]. apply H3. inversion Hb0; subst. by left.
    + exists l. split_and!; [apply H2; by left| |].
      * eexists. split; [exact Hr|]. by apply (path_hd ch Hwf).
      * apply H3. destruct (builds_path ch _ _ _ _ _ Hb0) as (n2 & cs2 & ks2 & H4 & _ & Hb2).
        apply H4, elem_of_app. right. inversion Hb2; subst. by left.
  - destruct F2 as (c & H1 & H2). apply Hcs in H1 as [p H1]. by exists (c, p).
  - intros [c p] q Hin Hp. destruct (F3 c q) as [H|H]; [apply Hcs; eauto|done|by left|]. right. by apply Hcs.
  - intros [c p] k Hin Hk. destruct (F4 c k) as (c' & H1 & H2); [apply Hcs; eauto|done|].
    apply Hcs in H1 as [p' H1]. by exists (c', p').
Qed.

(** ** Transitions *)
Lemma late_dec x z act y : late ch x z act y ∨ ¬ late ch x z act y.
Proof.
  unfold late. destruct (action_owner ch act) as [o|]; [|right; naive_solver].
  destruct (decide (Some o ∈ context_list ch x.1)) as [H1|H1]; rewrite <-(encloses_list ch Hwf) in H1; [|right; naive_solver].
  assert (within ch z.1 o ∨ ¬ within ch z.1 o) as [H2|H2]; [|..|right; naive_solver].
  { unfold within. destruct (decide (o = z.1)); [by left; left|].
    destruct (decide (Some z.1 ∈ context_list ch o)) as [H|H]; rewrite <-(encloses_list ch Hwf) in H; tauto. }
  destruct (decide (Some o ∈ context_list ch y.1)) as [H3|H3]; rewrite <-(encloses_list ch Hwf) in H3.
  - right. intros (o' & [= <-] & _ & _ & ?). done.
  - left. by exists o.
Qed.
Definition transition (t : list obs) (fe : bool) (e : event) (x : obj) (d : init) (act : option nat)
    (cc : option cls) (z : obj) (K : list okind) : Prop :=
  ∃ cx L1 L2 n kb, K = (exits fe L1 ++ act_of (snd <$> cx) act e ++ exits fe L2) ++ kb ∧
    receiver ch x z act (fst <$> cx) ∧ (∀ q, cx = Some q → lives t q) ∧
    (∀ y, y ∈ L1 ↔ lives t y ∧ within ch z.1 y.1 ∧ ¬ late ch x z act y) ∧ leaving ch L1 ∧
    (∀ y, y ∈ L2 ↔ lives t y ∧ within ch z.1 y.1 ∧ late ch x z act y) ∧ leaving ch L2 ∧ below t n ∧
    entering n (path_below ch cc (init_cls d)) d kb.
Lemma transit_plan_transition t fe e x d act K : transit_plan ch t fe e x d act K →
  ∃ cc z, transit_ok ch x.1 d = true ∧ innermost_common ch cc x.1 (init_cls d) ∧
    lives t z ∧ parent ch z.1 = cc ∧ within ch z.1 x.1 ∧ transition t fe e x d act cc z K.
Proof.
  intros (cc & z & cx & L1 & L2 & n & cs & kb & H0 & H1 & H2 & H3 & H4 & Hr & Hc & H5 & H6 & H7 & H8 & H9 & H10 & H11).
  exists cc, z. split_and!; try done.
  exists cx, L1, L2, n, kb. split_and!; try done. eapply builds_entering; [exact H10|]. split.
  - unfold transit_ok in H0. by apply andb_true_iff in H0 as [? _].
  - apply (chain_path_below ch Hwf). apply H1.
Qed.
Lemma exits_app fe L1 L2 : exits fe (L1 ++ L2) = exits fe L1 ++ exits fe L2.
Proof. apply flat_map_app. Qed.

Section transition.
Context t fe e x d act cc z K (HT : transition t fe e x d act cc z K).

Lemma transition_removals : ∃ L, removals K = exits fe L ∧ (∀ y, y ∈ L ↔ lives t y ∧ within ch z.1 y.1) ∧
  (ch_relax ch = None → leaving ch L).
Proof.
  destruct HT as (cx & L1 & L2 & n & kb & -> & Hrc & Hlc & H1 & H2 & H3 & H4 & _ & H5). exists (L1 ++ L2). split_and!.
  - by rewrite !removals_app, (et_removals _ _ _ _ H5), removals_act, exits_app, !app_nil_r, !removals_exits.
  - intros y. rewrite elem_of_app, H1, H3. pose proof (late_dec x z act y). tauto.
  - intros Hr. assert (L2 = []) as ->; [|by rewrite app_nil_r].
    destruct L2 as [|y L2]; [done|]. exfalso. destruct (H3 y) as [(_ & _ & o & Ho & _) _]; [left|].
    unfold action_owner in Ho. by rewrite Hr in Ho.
Qed.
Lemma transition_actions : ∃ cx, actions K = act_of cx act e.
Proof.
  destruct HT as (cx & L1 & L2 & n & kb & -> & Hrc & Hlc & H1 & H2 & H3 & H4 & _ & H5).
  exists (snd <$> cx). by rewrite !actions_app, (et_actions _ _ _ _ H5), actions_act, !actions_exits, !app_nil_r.
Qed.
Lemma transition_built : ∃ n kb, below t n ∧ built K = built kb ∧ (∀ k, k ∈ kb → k ∈ K) ∧
  entering n (path_below ch cc (init_cls d)) d kb.
Proof.
  destruct HT as (cx & L1 & L2 & n & kb & -> & Hrc & Hlc & H1 & H2 & H3 & H4 & Hn & H5). exists n, kb. split_and!; try done.
  - by rewrite !built_app, !built_exits, built_act.
  - intros k Hk. rewrite !elem_of_app. auto.
Qed.
Lemma transition_phases K1 k K2 : K = K1 ++ k :: K2 →
  (removal k = true ∨ is_action k = true → built K1 = []) ∧
  (removal k = true → ch_relax ch = None → actions K1 = []).
Proof.
  destruct HT as (cx & L1 & L2 & n & kb & -> & Hrc & Hlc & H1 & H2 & H3 & H4 & Hn & [H5 H6 _ _ _ _ _ _ _]). intros E. split.
  - intros Hk. apply app_eq_inv in E as [(K' & E & E2)|(K' & E & E2)].
    + assert (built (exits fe L1 ++ act_of (snd <$> cx) act e ++ exits fe L2) = []) as Hb.
      { by rewrite !built_app, !built_exits, built_act. }
      rewrite E, built_app in Hb. by apply app_eq_nil in Hb as [].
    + exfalso. assert (k ∈ kb) as Hin. { rewrite E2. apply elem_of_app. right. left. }
      destruct Hk as [Hk|Hk].
      * assert (k ∈ removals kb) as Hin' by by apply elem_of_list_filter. rewrite H5 in Hin'. by apply elem_of_nil in Hin'.
      * assert (k ∈ actions kb) as Hin' by by apply elem_of_list_filter. rewrite H6 in Hin'. by apply elem_of_nil in Hin'.
  - intros Hk Hr. assert (L2 = []) as ->.
    { destruct L2 as [|y L2]; [done|]. exfalso. destruct (H3 y) as [(_ & _ & o & Ho & _) _]; [left|].
      unfold action_owner in Ho. by rewrite Hr in Ho. }
    simpl in E. rewrite app_nil_r, <-app_assoc in E. apply app_eq_inv in E as [(K' & E & E2)|(K' & E & E2)].
    + pose proof (actions_exits fe L1) as Ha. rewrite E, actions_app in Ha. by apply app_eq_nil in Ha as [].
    + exfalso. assert (k ∈ removals (act_of (snd <$> cx) act e ++ kb)) as Hin.
      { apply elem_of_list_filter. split; [done|]. rewrite E2. apply elem_of_app. right. left. }
      rewrite removals_app, H5, removals_act in Hin. by apply elem_of_nil in Hin.
Qed.
(** The states that the action finds, and those that it does not. *)
Lemma transition_around K1 c' n' e' K2 : K = K1 ++ OAction c' n' e' :: K2 → act = Some n' ∧ e' = e ∧
  ∃ cx L1 L2, c' = snd <$> cx ∧ receiver ch x z act (fst <$> cx) ∧ (∀ q, cx = Some q → lives t q) ∧ K1 = exits fe L1 ∧ removals K2 = exits fe L2 ∧
    (∀ y, y ∈ L1 ↔ lives t y ∧ within ch z.1 y.1 ∧ ¬ late ch x z act y) ∧ leaving ch L1 ∧
    (∀ y, y ∈ L2 ↔ lives t y ∧ within ch z.1 y.1 ∧ late ch x z act y) ∧ leaving ch L2.
Proof.
  destruct HT as (cx & L1 & L2 & n & kb & -> & Hrc & Hlc & H1 & H2 & H3 & H4 & Hn & [H5 H6 _ _ _ _ _ _ _]). intros E.
  assert (∀ L, OAction c' n' e' ∉ exits fe L) as Hno.
  { intros L Hin. pose proof (actions_exits fe L) as Ha. assert (OAction c' n' e' ∈ actions (exits fe L)) as Hin'.
    { by apply elem_of_list_filter. } rewrite Ha in Hin'. by apply elem_of_nil in Hin'. }
  assert (OAction c' n' e' ∉ kb) as Hno'.
  { intros Hin. assert (OAction c' n' e' ∈ actions kb) as Hin' by by apply elem_of_list_filter.
    rewrite H6 in Hin'. by apply elem_of_nil in Hin'. }
  rewrite <-!app_assoc in E. apply app_eq_inv in E as [(K' & E & E2)|(K' & E & E2)].
  { destruct K' as [|k K']; simpl in E2.
    - rewrite app_nil_r in E. destruct act as [a|]; simpl in E2.
      + injection E2 as -> -> -> ->. split_and!; [done|done|]. exists cx, L1, L2. split_and!; try done.
        by rewrite removals_app, H5, app_nil_r, removals_exits.
      + exfalso. assert (OAction c' n' e' ∈ exits fe L2 ++ kb) as Hin by (rewrite <-E2; left).
        apply elem_of_app in Hin as [Hin|Hin]; [by apply Hno in Hin|done].
    - injection E2 as <- E2. exfalso. apply (Hno L1). rewrite E. apply elem_of_app. right. left. }
  destruct act as [a|]; simpl in E2.
  - destruct K' as [|k K']; simpl in E2.
    + injection E2 as <- -> -> <-. rewrite app_nil_r in E. subst K1. split_and!; [done|done|]. exists cx, L1, L2. split_and!; try done.
      by rewrite removals_app, H5, app_nil_r, removals_exits.
    + injection E2 as <- E2. exfalso. assert (OAction c' n' e' ∈ exits fe L2 ++ kb) as Hin.
      { rewrite E2. apply elem_of_app. right. left. } apply elem_of_app in Hin as [Hin|Hin]; [by apply Hno in Hin|done].
  - exfalso. assert (OAction c' n' e' ∈ exits fe L2 ++ kb) as Hin.
    { rewrite E2. apply elem_of_app. right. left. } apply elem_of_app in Hin as [Hin|Hin]; [by apply Hno in Hin|done].
Qed.
End transition.
End plans.

(** ** Where a transition or termination starts and ends in the trace *)
(** What is recorded up to an exception, including what the allocator did. *)
Definition steady (k : okind) : bool := quiet k || match k with ORefused _ => true | _ => false end.
Lemma quiet_steady k : quiet k = true → steady k = true.
Proof. unfold steady. by intros ->. Qed.
Lemma quiets_steady ks : Forall (λ k, quiet k = true) ks → Forall (λ k, steady k = true) ks.
Proof. intros H. eapply Forall_impl; [exact H|]. apply quiet_steady. Qed.
(** [T] begins with the entries [ks] about states, actions, history, allocators and library calls by user code; the
    next entry, if any, is [k]. *)
Definition spans (b : option event) (T : list obs) (ks : list okind) (k : option okind) : Prop :=
  Forall (λ k, steady k = true) ks ∧
  match k with
  | None => T = under b ks
  | Some k => steady k = false ∧ ∃ b' T', T = under b ks ++ Obs b' k :: T'
  end.
(** How to compute it. *)
Definition spansb (b : option event) (T : list obs) (ks : list okind) (k : okind) : bool :=
  match drop (length ks) T with
  | o :: _ => bool_decide (take (length ks) T = under b ks) && bool_decide (ob o = k) && negb (steady k) && forallb steady ks
  | [] => false
  end.
Lemma spansb_ok b T ks k : spansb b T ks k = true → spans b T ks (Some k).
Proof.
  unfold spansb. destruct (drop (length ks) T) as [|o T'] eqn:E; [done|].
  rewrite !andb_true_iff, !bool_decide_eq_true, negb_true_iff, forallb_forall. intros [[[H1 H2] H3] H4].
  split; [|split; [done|]].
  - apply Forall_forall. intros k' Hk'. by apply H4, elem_of_list_In.
  - exists (ob_trig o), T'. rewrite <-(take_drop (length ks) T), H1, E. destruct o; simpl in *. by subst.
Qed.
Lemma spans_nil b T k : spans b T [] k →
  match T with [] => k = None | o :: _ => k = Some (ob o) ∧ steady (ob o) = false end.
Proof.
  intros [_ H]. destruct k as [k|]; [|by subst T]. destruct H as (H & b' & T' & ->). done.
Qed.
Lemma spans_cons b T x ks k : spans b T (x :: ks) k →
  ∃ T0, T = Obs b x :: T0 ∧ steady x = true ∧ spans b T0 ks k.
Proof.
  intros [[H1 H2]%Forall_cons H]. destruct k as [k|].
  - destruct H as (H & b' & T' & ->). eexists. split; [done|]. split; [done|]. split; [done|]. split; [done|]. by exists b', T'.
  - subst T. eexists. split; [done|]. split; [done|]. by split.
Qed.
Lemma spans_unique b T ks k ks' k' : spans b T ks k → spans b T ks' k' → ks = ks' ∧ k = k'.
Proof.
  revert T ks'. induction ks as [|x ks IH]; intros T [|x' ks'] H1 H2.
  - apply spans_nil in H1, H2. split; [done|]. destruct T; [congruence|]. destruct H1, H2. congruence.
  - apply spans_nil in H1. apply spans_cons in H2 as (T0 & -> & Hq & _). simpl in H1. destruct H1. congruence.
  - apply spans_nil in H2. apply spans_cons in H1 as (T0 & -> & Hq & _). simpl in H2. destruct H2. congruence.
  - apply spans_cons in H1 as (T0 & -> & Hq & H1). apply spans_cons in H2 as (T1 & [= -> ->] & _ & H2).
    by destruct (IH T1 ks' H1 H2) as [-> ->].
Qed.

Lemma goes_spans b P ks b' k T : goes P ks → steady k = false → spans b (under b ks ++ Obs b' k :: T) ks (Some k).
Proof. intros [H _] Hk. split; [by apply quiets_steady|]. split; [done|]. eauto. Qed.
Lemma lifes_refusal ks g : lifes (ks ++ refusal g) = lifes ks.
Proof. unfold lifes. rewrite filter_app. destruct g; simpl; by rewrite app_nil_r. Qed.
(** At most the last of the entries [ks] is about an allocator that throws, and it is asked for what comes next. *)
Definition refusing (ch : chart) (ks rest : list okind) : Prop :=
  ∃ k0 g, ks = k0 ++ refusal g ∧ Forall (λ k, quiet k = true) k0 ∧ fits ch g (lifes ks) rest.
Lemma goes_refusing ch P ks rest : goes P ks → refusing ch ks rest.
Proof. intros [H _]. exists ks, None. by rewrite app_nil_r. Qed.
Lemma stops_spans' ch b P y ks T : stops ch P y ks →
  ∃ k1 rest, spans b (under b ks ++ T) k1 (Some (OThrow y)) ∧ P (lifes k1 ++ rest) ∧ refusing ch k1 rest.
Proof.
  intros (k1 & g & k2 & rest & -> & H1 & H2 & H3 & H4 & H5). exists (k1 ++ refusal g), rest.
  split_and!; [|by rewrite lifes_refusal|exists k1, g; by rewrite lifes_refusal].
  split; [apply Forall_app; split; [by apply quiets_steady|by destruct g; repeat constructor]|]. split; [done|].
  exists b, (under b k2 ++ T). rewrite !under_app_, <-!app_assoc. done.
Qed.
Lemma stops_spans ch b P y ks T : stops ch P y ks →
  ∃ k1 rest, spans b (under b ks ++ T) k1 (Some (OThrow y)) ∧ P (lifes k1 ++ rest).
Proof. intros H. destruct (stops_spans' ch b P y ks T H) as (k1 & rest & H1 & H2 & _). eauto. Qed.

(** Leaving states needs memory only to record them in the history. *)
Lemma exits_refused ch g K K' fe L : K ++ K' = exits fe L → fits ch g K K' → g = None ∨ ∃ c x, g = Some (ARecord c x).
Proof.
  intros E. destruct g as [[c|c|c x|e]|]; eauto; try done.
  - intros (p & K0 & ->). exfalso. assert (OCtor p c ∈ exits fe L) as Hin.
    { rewrite <-E. apply elem_of_app. right. left. }
    apply elem_of_list_In, in_flat_map in Hin as (y & _ & Hin). destruct fe; simpl in Hin; naive_solver.
  - intros (p & K0 & -> & _). exfalso. assert (OCtor p c ∈ exits fe L) as Hin.
    { rewrite <-E. rewrite !elem_of_app. left. right. left. }
    apply elem_of_list_In, in_flat_map in Hin as (y & _ & Hin). destruct fe; simpl in Hin; naive_solver.
Qed.

Section at_.
Context {W : Type} (ch : chart) (U : user W).
Context (Hwf : wf_chart ch = true) (HU : user_ok ch U).

Lemma transit_at' s t1 b p c d t2 : seen ch U s → tr s = t1 ++ Obs b (OTransit p c d) :: t2 →
  ∃ e act ks k rest, b = Some e ∧ spans b t2 ks (Some k) ∧
    transit_plan ch t1 (negb (excepting t1)) e (c, p) d act (lifes ks ++ rest) ∧
    (k = OResult p c RDiscard ∧ rest = [] ∧ Forall (λ k, quiet k = true) ks ∨ (∃ y, k = OThrow y) ∧ refusing ch ks rest).
Proof.
  intros Hs E. destruct (every_seen ch U Hwf HU s Hs) as [He _]. destruct (He t1 _ t2 E) as [_ Hd]. cbn in Hd.
  destruct Hd as (e & act & ks & r & T' & -> & -> & Hef & Hr).
  inversion Hef as [| | | |? ? ? Hg|? ? y ? Hg| |]; subst.
  - destruct (Hr _ eq_refl) as (T'' & ->). exists e, act, ks, (OResult p c RDiscard), []. split_and!; try done.
    + by eapply goes_spans.
    + rewrite app_nil_r. by apply Hg.
    + left. by destruct Hg.
  - destruct (stops_spans' ch (Some e) _ _ _ T' Hg) as (k1 & rest & Hsp & HP & HR). exists e, act, k1, (OThrow y), rest.
    split_and!; eauto.
Qed.
Lemma transit_at s t1 b p c d t2 : seen ch U s → tr s = t1 ++ Obs b (OTransit p c d) :: t2 →
  ∃ e act ks k rest, b = Some e ∧ spans b t2 ks (Some k) ∧
    transit_plan ch t1 (negb (excepting t1)) e (c, p) d act (lifes ks ++ rest) ∧
    (k = OResult p c RDiscard ∧ rest = [] ∨ ∃ y, k = OThrow y).
Proof.
  intros Hs E. destruct (transit_at' _ _ _ _ _ _ _ Hs E) as (e & act & ks & k & rest & H1 & H2 & H3 & H4).
  exists e, act, ks, k, rest. split_and!; try done. naive_solver.
Qed.
Lemma terminate_at' s t1 b p c t2 : seen ch U s → tr s = t1 ++ Obs b (OTerminate p c) :: t2 →
  ∃ e ks k rest, b = Some e ∧ spans b t2 ks (Some k) ∧
    terminate_plan ch t1 (negb (excepting t1)) (c, p) (lifes ks ++ rest) ∧
    (k = OResult p c RDiscard ∧ rest = [] ∧ Forall (λ k, quiet k = true) ks ∨
     (∃ y, k = OThrow y) ∧ refusing ch ks rest ∧ ∀ a, ORefused a ∈ ks → ∃ c x, a = ARecord c x).
Proof.
  intros Hs E. destruct (every_seen ch U Hwf HU s Hs) as [He _]. destruct (He t1 _ t2 E) as [_ Hd]. cbn in Hd.
  destruct Hd as (e & ks & r & T' & -> & -> & Hef & Hr).
  inversion Hef as [| | | | | |? Hg|y ? Hg]; subst.
  - destruct (Hr _ eq_refl) as (T'' & ->). exists e, ks, (OResult p c RDiscard), []. split_and!; try done.
    + by eapply goes_spans.
    + rewrite app_nil_r. by apply Hg.
    + left. by destruct Hg.
  - destruct (stops_spans' ch (Some e) _ _ _ T' Hg) as (k1 & rest & Hsp & HP & k0 & g & -> & H0 & HR).
    exists e, (k0 ++ refusal g), (OThrow y), rest. split_and!; try done. right. split_and!; [eauto|by exists k0, g|].
    intros a [Hin|Hin]%elem_of_app; [rewrite Forall_forall in H0; by apply H0 in Hin|].
    destruct HP as (L & _ & _ & HP). destruct (exits_refused _ _ _ _ _ _ HP HR) as [->|(c' & x & ->)]; [by apply elem_of_nil in Hin|].
    apply elem_of_list_singleton in Hin as [= ->]. eauto.
Qed.
Lemma terminate_at s t1 b p c t2 : seen ch U s → tr s = t1 ++ Obs b (OTerminate p c) :: t2 →
  ∃ e ks k rest, b = Some e ∧ spans b t2 ks (Some k) ∧
    terminate_plan ch t1 (negb (excepting t1)) (c, p) (lifes ks ++ rest) ∧
    (k = OResult p c RDiscard ∧ rest = [] ∨ ∃ y, k = OThrow y).
Proof.
  intros Hs E. destruct (terminate_at' _ _ _ _ _ _ Hs E) as (e & ks & k & rest & H1 & H2 & H3 & H4).
  exists e, ks, k, rest. split_and!; try done. naive_solver.
Qed.

(** *** Transitions *)
Lemma transit_ends s t1 b p c d t2 : seen ch U s → tr s = t1 ++ Obs b (OTransit p c d) :: t2 →
  ∃ ks k, spans b t2 ks (Some k) ∧ (k = OResult p c RDiscard ∨ ∃ y, k = OThrow y).
Proof.
  intros Hs E. destruct (transit_at _ _ _ _ _ _ _ Hs E) as (e & act & ks & k & rest & _ & H1 & _ & H2).
  exists ks, k. split; [done|]. naive_solver.
Qed.
Lemma terminate_ends s t1 b p c t2 : seen ch U s → tr s = t1 ++ Obs b (OTerminate p c) :: t2 →
  ∃ ks k, spans b t2 ks (Some k) ∧ (k = OResult p c RDiscard ∨ ∃ y, k = OThrow y).
Proof.
  intros Hs E. destruct (terminate_at _ _ _ _ _ _ Hs E) as (e & ks & k & rest & _ & H1 & _ & H2).
  exists ks, k. split; [done|]. naive_solver.
Qed.

Lemma exits_true L : exits true L = flat_map (λ y : obj, [OExit y.2 y.1; ODtor y.2 y.1]) L.
Proof. done. Qed.

Lemma transit_exit_order s t1 b p c d t2 ks : seen ch U s → tr s = t1 ++ Obs b (OTransit p c d) :: t2 →
  ch_relax ch = None → excepting t1 = false → spans b t2 ks (Some (OResult p c RDiscard)) →
  ∃ L, removals ks = flat_map (λ y : obj, [OExit y.2 y.1; ODtor y.2 y.1]) L ∧
    StronglySorted (λ y z : obj, exit_before ch y.1 z.1) L.
Proof.
  intros Hs E Hrel Hx Hsp. destruct (transit_at _ _ _ _ _ _ _ Hs E) as (e & act & ks' & k & rest & _ & H1 & H2 & H3).
  destruct (spans_unique _ _ _ _ _ _ Hsp H1) as [<- [= <-]]. destruct H3 as [[_ ->]|[y ?]]; [|done].
  rewrite app_nil_r, Hx in H2. apply (transit_plan_transition ch Hwf) in H2 as (cc & z & _ & _ & _ & _ & _ & HT).
  destruct (transition_removals ch Hwf _ _ _ _ _ _ _ _ _ HT) as (L & E' & _ & HL). exists L. split; [|by apply HL].
  by rewrite <-removals_lifes.
Qed.
Lemma terminate_exit_order s t1 b p c t2 ks : seen ch U s → tr s = t1 ++ Obs b (OTerminate p c) :: t2 →
  excepting t1 = false → spans b t2 ks (Some (OResult p c RDiscard)) →
  ∃ L, removals ks = flat_map (λ y : obj, [OExit y.2 y.1; ODtor y.2 y.1]) L ∧
    StronglySorted (λ y z : obj, exit_before ch y.1 z.1) L.
Proof.
  intros Hs E Hx Hsp. destruct (terminate_at _ _ _ _ _ _ Hs E) as (e & ks' & k & rest & _ & H1 & H2 & H3).
  destruct (spans_unique _ _ _ _ _ _ Hsp H1) as [<- [= <-]]. destruct H3 as [[_ ->]|[y ?]]; [|done].
  rewrite app_nil_r, Hx in H2. destruct H2 as (L & _ & HL & E'). exists L. split; [|done].
  by rewrite <-removals_lifes, E', removals_exits.
Qed.

(** Objects that are not destroyed stay alive. *)
Lemma lives_keep t b k0 ks y : lives t y → about k0 ≠ Some y ∨ is_life k0 = false → ODtor y.2 y.1 ∉ ks →
  lives (t ++ Obs b k0 :: under b ks) y.
Proof.
  intros [H1 H2] H3 H4. unfold lives. rewrite map_app, !elem_of_app. split; [by left|]. intros [?|H]; [done|].
  simpl in H. apply elem_of_cons in H as [<-|H]; [destruct H3 as [H3|H3]; [by destruct y|done]|].
  unfold under in H. rewrite map_map in H. cbn in H. by rewrite map_id in H.
Qed.
Lemma map_ob_under b ks : map ob (under b ks) = ks.
Proof. unfold under. rewrite map_map. cbn. apply map_id. Qed.
Lemma lives_gone t b k0 ks y : ODtor y.2 y.1 ∈ ks → ¬ lives (t ++ Obs b k0 :: under b ks) y.
Proof.
  intros H [_ Hn]. apply Hn. rewrite map_app, elem_of_app. right. simpl. right. by rewrite map_ob_under.
Qed.

Lemma removals_elem k ks : removal k = true → k ∈ removals ks ↔ k ∈ ks.
Proof. intros H. unfold removals. rewrite elem_of_list_filter. tauto. Qed.

Lemma transit_destroys s t1 b p c d t2 : seen ch U s → tr s = t1 ++ Obs b (OTransit p c d) :: t2 →
  ∃ cc z, innermost_common ch cc c (init_cls d) ∧ lives t1 z ∧ parent ch z.1 = cc ∧ within ch z.1 c ∧
    ∀ ks k, spans b t2 ks k →
      (∀ y : obj, OExit y.2 y.1 ∈ ks ∨ ODtor y.2 y.1 ∈ ks → lives t1 y ∧ within ch z.1 y.1) ∧
      (k = Some (OResult p c RDiscard) → ∀ y, lives t1 y →
        (within ch z.1 y.1 → ODtor y.2 y.1 ∈ ks ∧ (excepting t1 = false → OExit y.2 y.1 ∈ ks)) ∧
        (¬ within ch z.1 y.1 → lives (t1 ++ Obs b (OTransit p c d) :: under b ks) y)).
Proof.
  intros Hs E. destruct (transit_at _ _ _ _ _ _ _ Hs E) as (e & act & ks & k & rest & _ & H1 & H2 & H3).
  apply (transit_plan_transition ch Hwf) in H2 as (cc & z & _ & Hcc & Hz & Hp & Hin & HT).
  exists cc, z. split_and!; try done. intros ks' k' Hsp. destruct (spans_unique _ _ _ _ _ _ Hsp H1) as [-> ->].
  destruct (transition_removals ch Hwf _ _ _ _ _ _ _ _ _ HT) as (L & E' & HL & _). rewrite removals_app, removals_lifes in E'.
  assert (∀ y : obj, OExit y.2 y.1 ∈ ks ∨ ODtor y.2 y.1 ∈ ks → lives t1 y ∧ within ch z.1 y.1) as Hd.
  { intros y Hy. apply HL.
    assert (OExit y.2 y.1 ∈ exits (negb (excepting t1)) L ∨ ODtor y.2 y.1 ∈ exits (negb (excepting t1)) L) as Hy'.
    { rewrite <-E', !elem_of_app, !removals_elem by done. tauto. }
    destruct Hy' as [Hy'|Hy']; [by eapply elem_exits_exit|by eapply elem_exits_dtor]. }
  split; [done|]. intros [= ->] y Hy. destruct H3 as [[_ ->]|[? ?]]; [|done]. simpl in E'. rewrite app_nil_r in E'. split.
  - intros Hw. assert (y ∈ L) as HyL by by apply HL. split.
    + apply removals_elem; [done|]. rewrite E'. by apply elem_exits_dtor.
    + intros Hx. apply removals_elem; [done|]. rewrite E', Hx. simpl. unfold exits.
      apply elem_of_list_In, in_flat_map. exists y. split; [by apply elem_of_list_In|]. by left.
  - intros Hw. apply lives_keep; [done|by right|]. intros Hn. apply Hw. apply (Hd y). by right.
Qed.

Lemma transit_phases s t1 b p c d t2 ks k : seen ch U s → tr s = t1 ++ Obs b (OTransit p c d) :: t2 →
  spans b t2 ks k → ∀ k1 k' k2, ks = k1 ++ k' :: k2 →
  (removal k' = true ∨ is_action k' = true → built k1 = []) ∧
  (removal k' = true → ch_relax ch = None → actions k1 = []).
Proof.
  intros Hs E Hsp k1 k' k2 ->. destruct (transit_at _ _ _ _ _ _ _ Hs E) as (e & act & ks & k0 & rest & _ & H1 & H2 & _).
  destruct (spans_unique _ _ _ _ _ _ Hsp H1) as [<- ->].
  apply (transit_plan_transition ch Hwf) in H2 as (cc & z & _ & _ & _ & _ & _ & HT).
  assert (is_life k' = true → (removal k' = true ∨ is_action k' = true → built k1 = []) ∧
    (removal k' = true → ch_relax ch = None → actions k1 = [])) as H.
  { intros Hl. destruct (transition_phases ch _ _ _ _ _ _ _ _ _ HT (lifes k1) k' (lifes k2 ++ rest)) as [H3 H4].
    { by rewrite lifes_app, lifes_cons, <-app_assoc. }
    by rewrite <-built_lifes, <-actions_lifes. }
  destruct k'; simpl in *; try (by apply H); (split; [by intros [?|?]|done]).
Qed.

(** Around the action. *)
Lemma transit_around s t1 b p c d t2 ks k k1 c' n e' k2 : seen ch U s → tr s = t1 ++ Obs b (OTransit p c d) :: t2 →
  spans b t2 ks k → ks = k1 ++ OAction c' n e' :: k2 →
  ∃ cc z cx L1 L2, c' = snd <$> cx ∧ receiver ch (c, p) z (Some n) (fst <$> cx) ∧ (∀ q, cx = Some q → lives t1 q) ∧ innermost_common ch cc c (init_cls d) ∧ lives t1 z ∧ parent ch z.1 = cc ∧ within ch z.1 c ∧
    removals k1 = exits (negb (excepting t1)) L1 ∧ built k1 = [] ∧
    removals k2 `prefix_of` exits (negb (excepting t1)) L2 ∧
    (k = Some (OResult p c RDiscard) → removals k2 = exits (negb (excepting t1)) L2) ∧
    (∀ y, y ∈ L1 ↔ lives t1 y ∧ within ch z.1 y.1 ∧ ¬ late ch (c, p) z (Some n) y) ∧ leaving ch L1 ∧
    (∀ y, y ∈ L2 ↔ lives t1 y ∧ within ch z.1 y.1 ∧ late ch (c, p) z (Some n) y) ∧ leaving ch L2.
Proof.
  intros Hs E Hsp ->. destruct (transit_at _ _ _ _ _ _ _ Hs E) as (e & act & ks & k0 & rest & _ & H1 & H2 & H3).
  destruct (spans_unique _ _ _ _ _ _ Hsp H1) as [<- ->].
  apply (transit_plan_transition ch Hwf) in H2 as (cc & z & _ & Hcc & Hz & Hp & Hin & HT).
  destruct (transition_around ch _ _ _ _ _ _ _ _ _ HT (lifes k1) c' n e' (lifes k2 ++ rest)) as (-> & -> & cx & L1 & L2 & Ec & Hrc & Hlc & E1 & E2 & M1 & S1 & M2 & S2).
  { by rewrite lifes_app, lifes_cons, <-app_assoc. }
  exists cc, z, cx, L1, L2. split_and!; [exact Ec|exact Hrc|exact Hlc|exact Hcc|exact Hz|exact Hp|exact Hin|..|exact M1|exact S1|exact M2|exact S2].
  - by rewrite <-removals_lifes, E1, removals_exits.
  - by rewrite <-built_lifes, E1, built_exits.
  - rewrite removals_app, removals_lifes in E2. by exists (removals rest).
  - intros [= ->]. destruct H3 as [[_ ->]|[y ?]]; [|done]. by rewrite app_nil_r, removals_lifes in E2.
Qed.

Lemma transit_entry_order s t1 b p c d t2 ks k : seen ch U s → tr s = t1 ++ Obs b (OTransit p c d) :: t2 →
  spans b t2 ks k → StronglySorted (λ y z, exit_before ch z y) (map fst (built ks)).
Proof.
  intros Hs E Hsp. destruct (transit_at _ _ _ _ _ _ _ Hs E) as (e & act & ks' & k0 & rest & _ & H1 & H2 & _).
  destruct (spans_unique _ _ _ _ _ _ Hsp H1) as [<- ->].
  apply (transit_plan_transition ch Hwf) in H2 as (cc & z & _ & _ & _ & _ & _ & HT).
  destruct (transition_built ch _ _ _ _ _ _ _ _ _ HT) as (n & kb & _ & Eb & _ & He).
  pose proof (et_sorted ch _ _ _ _ He) as Hso. rewrite <-Eb, built_app, built_lifes, map_app in Hso.
  by eapply StronglySorted_prefix.
Qed.

Lemma outside_path cc q d : encloses ch cc d → encloses ch (Some q) d → q ∉ path_below ch cc d →
  cc = Some q ∨ ∃ q', cc = Some q' ∧ encloses ch (Some q) q'.
Proof.
  unfold path_below. intros Hc. induction (lt_wf d) as [d _ IH]. intros Hq Hn.
  rewrite (outers_unfold ch Hwf d) in Hn. destruct (parent ch d) as [q1|] eqn:Hp.
  2:{ inversion Hq as [c Heq|x' c q' Hp' He']; subst; congruence. }
  simpl in Hn. case_bool_decide as Hx.
  - subst cc. inversion Hq as [c Heq|x' c q' Hp' He']; subst; [left; congruence|right].
    exists q1. split; [done|]. congruence.
  - assert (encloses ch cc q1) as Hc'.
    { inversion Hc as [c Heq|x' c q' Hp' He']; subst; congruence. }
    assert (q = q1 ∨ encloses ch (Some q) q1) as [->|Hq'].
    { inversion Hq as [c Heq|x' c q' Hp' He']; subst; [left; congruence|right; congruence]. }
    + exfalso. apply Hn. simpl. rewrite elem_of_app. right. left.
    + apply (IH q1); [by apply (parent_lt _ Hwf)|done|done|]. intros H. apply Hn. simpl. rewrite elem_of_app. by left.
Qed.
Lemma transit_completes s t1 b p c d t2 ks t' : seen ch U s → tr s = t1 ++ Obs b (OTransit p c d) :: t2 →
  spans b t2 ks (Some (OResult p c RDiscard)) → t' = t1 ++ Obs b (OTransit p c d) :: under b ks →
  (∀ y, y ∈ built ks → lives t' y) ∧
  reaches ch d (λ c', ∃ p', (c', p') ∈ built ks) ks ∧
  (∀ q, encloses ch (Some q) (init_cls d) → ∃ p', lives t' (q, p')) ∧
  (∀ y k, y ∈ built ks → k < nreg ch y.1 → ∃ z, z ∈ built ks ∧ region ch z.1 = (Some y.1, k)).
Proof.
  intros Hs E Hsp ->. pose proof (seen_orderly ch U Hwf HU s Hs) as Ho.
  destruct (transit_at _ _ _ _ _ _ _ Hs E) as (e & act & ks' & k0 & rest & _ & H1 & H2 & H3).
  destruct (spans_unique _ _ _ _ _ _ Hsp H1) as [<- [= <-]]. destruct H3 as [[_ ->]|[? ?]]; [|done].
  rewrite app_nil_r in H2. apply (transit_plan_transition ch Hwf) in H2 as (cc & z & _ & Hcc & Hz & Hp & Hin & HT).
  destruct (transition_removals ch Hwf _ _ _ _ _ _ _ _ _ HT) as (L & E' & HL & _). rewrite removals_lifes in E'.
  destruct (transition_built ch _ _ _ _ _ _ _ _ _ HT) as (n & kb & Hn & Eb & Hkb & [_ _ _ Hf Hpath Hre _ Hou Hreg]).
  rewrite built_lifes in Eb.
  assert (∀ y : obj, ODtor y.2 y.1 ∈ ks → lives t1 y ∧ within ch z.1 y.1) as Hd.
  { intros y Hy. apply HL. apply (elem_exits_dtor y (negb (excepting t1))). rewrite <-E'. by apply removals_elem. }
  assert (∀ y, y ∈ built ks → lives (t1 ++ Obs b (OTransit p c d) :: under b ks) y) as Hlive.
  { intros y Hy. assert (n ≤ y.2) as Hge. { apply Hf. by rewrite <-Eb. }
    assert (∀ k, is_life k = true → about k = Some y → k ∉ map ob t1) as Hno.
    { intros k Hk Ha Hin'. specialize (Hn k y Hin' Hk Ha). lia. }
    unfold lives. rewrite map_app, !elem_of_app. simpl. rewrite !elem_of_cons, map_ob_under. split.
    - right. right. by apply elem_built.
    - intros [H|[H|H]]; [|done|].
      + by eapply Hno; [..|exact H]; destruct y.
      + apply Hd in H as [[H _] _]. by eapply Hno; [..|exact H]; destruct y. }
  split_and!; [done| | |].
  - rewrite Eb. destruct d; simpl in *; [done|..]; destruct Hre as (h & H4 & H5 & H6); exists h; split_and!; try done;
      apply Hkb in H4; unfold lifes in H4; by apply elem_of_list_filter in H4 as [_ H4].
  - intros q Hq. destruct (decide (q ∈ path_below ch cc (init_cls d))) as [Hpb|Hpb].
    + destruct (Hpath q Hpb) as [p' Hp']. exists p'. apply Hlive. by rewrite Eb.
    + assert (cc = Some q ∨ ∃ q', cc = Some q' ∧ encloses ch (Some q) q') as Hc.
      { apply (outside_path cc q (init_cls d)); [apply Hcc|done|done]. }
      assert (∃ p', lives t1 (q, p') ∧ encloses ch (Some q) z.1) as (p' & Hq' & Hqz).
      { assert (encloses ch (Some q) z.1) as Hqz.
        { destruct Hc as [Hc|(q' & Hc & Hqq)]; rewrite Hc in Hp.
          - rewrite <-Hp. constructor.
          - eapply encloses_step; [exact Hp|done]. }
        destruct (orderly_outers ch t1 z q) as [p' H]; eauto. rewrite E in Ho. by eapply orderly_prefix. }
      exists p'. apply lives_keep; [done|by right|]. intros Hn'. apply Hd in Hn' as [_ Hw]. simpl in Hw.
      destruct Hw as [->|Hw].
      * apply (encloses_lt ch Hwf) in Hqz. lia.
      * pose proof (encloses_lt ch Hwf _ _ Hqz). pose proof (encloses_lt ch Hwf _ _ Hw). lia.
  - intros y k Hy Hk. rewrite Eb in *. by apply Hreg.
Qed.

(** The action of a declared transition runs once; a transition demanded by a custom reaction runs the
    action given there. *)
Lemma transit_actions s t1 b p c d t2 ks : seen ch U s → tr s = t1 ++ Obs b (OTransit p c d) :: t2 →
  spans b t2 ks (Some (OResult p c RDiscard)) → ∃ e cx act, b = Some e ∧ actions ks = act_of cx act e.
Proof.
  intros Hs E Hsp. destruct (transit_at _ _ _ _ _ _ _ Hs E) as (e & act & ks' & k & rest & -> & H1 & H2 & H3).
  destruct (spans_unique _ _ _ _ _ _ Hsp H1) as [<- [= <-]]. destruct H3 as [[_ ->]|[y ?]]; [|done].
  rewrite app_nil_r in H2. apply (transit_plan_transition ch Hwf) in H2 as (cc & z & _ & _ & _ & _ & _ & HT).
  destruct (transition_actions ch _ _ _ _ _ _ _ _ _ HT) as [cx Ha]. exists e, cx, act. by rewrite <-actions_lifes.
Qed.

(** *** Terminations *)
Definition cascades (t : list obs) (c : cls) (y : obj) : Prop :=
  within ch c y.1 ∨
  encloses ch (Some y.1) c ∧
  ∀ w : obj, lives t w → encloses ch (Some y.1) w.1 → within ch c w.1 ∨ encloses ch (Some w.1) c.
Lemma lives_back t b k0 ks y : is_life k0 = false → OCtor y.2 y.1 ∉ ks → lives (t ++ Obs b k0 :: under b ks) y → lives t y.
Proof.
  intros H0 H1. unfold lives. rewrite map_app, !elem_of_app. simpl. rewrite !elem_of_cons, map_ob_under.
  intros [[H|[<-|H]] H']; [|done..]. split; [done|tauto].
Qed.
Lemma exits_no_ctor fe L p c : OCtor p c ∉ exits fe L.
Proof.
  intros H. pose proof (exits_removal fe L) as Hr. rewrite Forall_forall in Hr. by specialize (Hr _ H).
Qed.
Lemma terminate_destroys s t1 b p c t2 ks k t' : seen ch U s → tr s = t1 ++ Obs b (OTerminate p c) :: t2 →
  spans b t2 ks k → t' = t1 ++ Obs b (OTerminate p c) :: under b ks →
  (∀ y : obj, OExit y.2 y.1 ∈ ks ∨ ODtor y.2 y.1 ∈ ks → lives t1 y ∧ cascades t1 c y) ∧
  (k = Some (OResult p c RDiscard) →
    (∀ y, lives t1 y →
      (cascades t1 c y → ODtor y.2 y.1 ∈ ks ∧ (excepting t1 = false → OExit y.2 y.1 ∈ ks)) ∧
      (¬ cascades t1 c y → lives t' y)) ∧
    ((∀ y, ¬ lives t' y) ↔ ∀ y, lives t1 y → within ch c y.1 ∨ encloses ch (Some y.1) c)).
Proof.
  intros Hs E Hsp ->. destruct (terminate_at _ _ _ _ _ _ Hs E) as (e & ks' & k0 & rest & _ & H1 & H2 & H3).
  destruct (spans_unique _ _ _ _ _ _ Hsp H1) as [<- ->]. destruct H2 as (L & HL & _ & E').
  assert (∀ y : obj, OExit y.2 y.1 ∈ ks ∨ ODtor y.2 y.1 ∈ ks → lives t1 y ∧ cascades t1 c y) as Hd.
  { intros y Hy. apply HL.
    assert (OExit y.2 y.1 ∈ exits (negb (excepting t1)) L ∨ ODtor y.2 y.1 ∈ exits (negb (excepting t1)) L) as Hy'.
    { rewrite <-E', !elem_of_app, !elem_lifes by done. tauto. }
    destruct Hy' as [Hy'|Hy']; [by eapply elem_exits_exit|by eapply elem_exits_dtor]. }
  split; [done|]. intros [= ->]. destruct H3 as [[_ ->]|[? ?]]; [|done]. rewrite app_nil_r in E'.
  assert (∀ y, lives t1 y →
      (cascades t1 c y → ODtor y.2 y.1 ∈ ks ∧ (excepting t1 = false → OExit y.2 y.1 ∈ ks)) ∧
      (¬ cascades t1 c y → lives (t1 ++ Obs b (OTerminate p c) :: under b ks) y)) as Hx.
  { intros y Hy. split.
    - intros Hw. assert (y ∈ L) as HyL by by apply HL. split.
      + apply elem_lifes; [done|]. rewrite E'. by apply elem_exits_dtor.
      + intros Hx. apply elem_lifes; [done|]. rewrite E', Hx. simpl. unfold exits.
        apply elem_of_list_In, in_flat_map. exists y. split; [by apply elem_of_list_In|]. by left.
    - intros Hw. apply lives_keep; [done|by right|]. intros Hn. apply Hw. apply (Hd y). by right. }
  split; [done|]. split.
  - intros Hno y Hy. assert (ODtor y.2 y.1 ∈ ks) as Hin.
    { destruct (decide (ODtor y.2 y.1 ∈ ks)) as [|Hn]; [done|]. exfalso. apply (Hno y).
      apply lives_keep; [done|by right|done]. }
    destruct (Hd y (or_intror Hin)) as [_ [?|[? _]]]; tauto.
  - intros Hall y Hy. assert (lives t1 y) as Hy1.
    { eapply lives_back; [..|exact Hy]; [done|]. intros Hin. apply (exits_no_ctor (negb (excepting t1)) L y.2 y.1).
      rewrite <-E'. by apply elem_lifes. }
    eapply lives_gone; [|exact Hy]. apply (Hx y Hy1).
    destruct (Hall y Hy1) as [?|?]; [by left|]. right. split; [done|]. intros w Hw _. by apply Hall.
Qed.

(** *** terminate() *)
Lemma story_call s o r s' : reach ch U s → op_ok ch o = true → op_allowed ch U o s → call ch U o s = (r, s') →
  ∃ T o', ends r o' ∧ tr s' = tr s ++ T ∧ story ch U o (tr s) T o'.
Proof.
  intros Hs Ho Ha E. destruct (reach_backed ch U Hwf HU s Hs) as [a Hb].
  destruct (call_backed ch U Hwf HU _ _ _ _ _ Hb Ho Ha E) as (a' & T & o' & H1 & H2 & H3 & H4). eauto.
Qed.
Lemma terminate_call s r s' T : reach ch U s → call ch U OpTerminate s = (r, s') → tr s' = tr s ++ T →
  ∃ ks k rest, spans None T ks (Some k) ∧ end_plan ch (tr s) true (lifes ks ++ rest) ∧
    (k = OReset ∧ rest = [] ∧ r = Ret tt ∧ T = under None (ks ++ [OReset]) ∨ ∃ y, k = OThrow y).
Proof.
  intros Hs E ET. destruct (story_call s OpTerminate r s' Hs eq_refl) as (T' & o' & H1 & H2 & H3); [done|done|].
  rewrite ET in H2. apply app_inv_head in H2 as <-. simpl in H3. unfold terminating in H3.
  assert (∀ y ks T', stops ch (end_plan ch (tr s) true) y ks → T = under None ks ++ T' →
    ∃ ks k rest, spans None T ks (Some k) ∧ end_plan ch (tr s) true (lifes ks ++ rest) ∧
    (k = OReset ∧ rest = [] ∧ r = Ret tt ∧ T = under None (ks ++ [OReset]) ∨ ∃ y, k = OThrow y)) as Hst.
  { intros y ks T' Hst ->. destruct (stops_spans ch None _ _ _ T' Hst) as (k1 & rest & ? & ?). eauto 10. }
  inversion H3 as [ks r' Hd|ks y T' r' Hd|ks y T' y' ks' Hd]; subst.
  - destruct Hd as (ks' & -> & Hg). exists ks', OReset, []. split_and!.
    + rewrite under_app_. eapply goes_spans; [exact Hg|done].
    + rewrite app_nil_r. apply Hg.
    + left. split_and!; try done. by destruct r as [[]| | |].
  - by eapply Hst.
  - by eapply Hst.
Qed.

(** *** initiate() *)
Lemma event_loop_start n t T o : event_loop ch U n t T o → T = [] ∨ ∃ e T', T = Obs None (OTake e) :: T'.
Proof. intros H. inversion H; subst; eauto; right; simpl; eauto. Qed.
Lemma initiate_call n s r s' ks0 b T : reach ch U s → op_allowed ch U (OpInitiate n) s →
  call ch U (OpInitiate n) s = (r, s') → tr s' = tr s ++ under None ks0 ++ Obs b OReset :: T →
  Forall (λ k, quiet k = true) ks0 →
  let t1 := tr s ++ under None (ks0 ++ [OReset]) in
  end_plan ch (tr s) true (lifes ks0) ∧
  ∃ ks k rest, spans None T ks k ∧ init_plan ch t1 (lifes ks ++ rest) ∧ 
    (rest = [] ∧ (k = None ∨ ∃ e, k = Some (OTake e)) ∨ ∃ y, k = Some (OThrow y)) ∧
    ((∃ y, k = Some (OThrow y)) ∧ refusing ch ks rest ∨ Forall (λ k, quiet k = true) ks).
Proof.
  intros Hs Ha E ET Hq t1. destruct (story_call s (OpInitiate n) r s' Hs eq_refl Ha E) as (T' & o' & H1 & H2 & H3).
  rewrite ET in H2. apply app_inv_head in H2 as <-. simpl in H3.
  assert (∀ X, spans None (under None ks0 ++ Obs b OReset :: X) ks0 (Some OReset)) as Hsp.
  { intros X. split; [by apply quiets_steady|]. split; [done|]. eauto. }
  assert (∀ y ks X, stops ch (end_plan ch (tr s) true) y ks → under None ks0 ++ Obs b OReset :: T = under None ks ++ X → False) as Hst.
  { intros y ks X Hst HX. destruct (stops_spans ch None _ _ _ X Hst) as (k1 & rest & H & _). rewrite <-HX in H.
    destruct (spans_unique _ _ _ _ _ _ H (Hsp T)). done. }
  assert (∀ T1 X, terminating ch U (tr s) T1 Returned → under None ks0 ++ Obs b OReset :: T = T1 ++ X →
    T1 = under None (ks0 ++ [OReset]) ∧ T = X ∧ end_plan ch (tr s) true (lifes ks0)) as Hterm.
  { intros T1 X Ht HX. inversion Ht as [ks r' Hd|ks y T'' r' Hd|]; subst.
    - destruct Hd as (ks' & -> & Hg). rewrite under_app_, <-app_assoc in HX. simpl in HX.
      assert (spans None (under None ks0 ++ Obs b OReset :: T) ks' (Some OReset)) as H.
      { rewrite HX. by eapply goes_spans. }
      destruct (spans_unique _ _ _ _ _ _ H (Hsp T)) as [-> _]. apply app_inv_head in HX. injection HX as -> ->.
      split_and!; [done..|]. apply Hg.
    - exfalso. rewrite <-app_assoc in HX. by eapply Hst. }
  assert (∀ T1 X o, translated ch U t1 (starts ch t1) T1 o → T = T1 ++ X →
    (X = [] ∨ ∃ e X', X = Obs None (OTake e) :: X') →
    ∃ ks k rest, spans None T ks k ∧ init_plan ch t1 (lifes ks ++ rest) ∧
    (rest = [] ∧ (k = None ∨ ∃ e, k = Some (OTake e)) ∨ ∃ y, k = Some (OThrow y)) ∧
    ((∃ y, k = Some (OThrow y)) ∧ refusing ch ks rest ∨ Forall (λ k, quiet k = true) ks)) as Hin.
  { intros T1 X o Ht -> HX.
    assert (∀ y ks X', stops ch (init_plan ch t1) y ks → T1 ++ X = under None ks ++ X' →
      ∃ ks k rest, spans None (T1 ++ X) ks k ∧ init_plan ch t1 (lifes ks ++ rest) ∧
      (rest = [] ∧ (k = None ∨ ∃ e, k = Some (OTake e)) ∨ ∃ y, k = Some (OThrow y)) ∧
      ((∃ y, k = Some (OThrow y)) ∧ refusing ch ks rest ∨ Forall (λ k, quiet k = true) ks)) as Hst'.
    { intros y ks X' Hst' ->. destruct (stops_spans' ch None _ _ _ X' Hst') as (k1 & rest & H & H' & H''). exists k1, (Some (OThrow y)), rest. eauto 10. }
    inversion Ht as [ks r' Hd|ks y T'' r' Hd|ks y T'' y' ks' Hd]; subst.
    - destruct HX as [->|(e & X' & ->)].
      + exists ks, None, []. rewrite !app_nil_r. split_and!; [|apply Hd|by left; eauto|right; apply Hd]. split; [apply quiets_steady, Hd|done].
      + exists ks, (Some (OTake e)), []. rewrite !app_nil_r. split_and!; [|apply Hd|left; eauto|right; apply Hd]. by eapply goes_spans.
    - eapply Hst'; [exact Hd|by rewrite <-app_assoc].
    - eapply Hst'; [exact Hd|by rewrite <-app_assoc]. }
  inversion H3 as [T1 y Ht|T1 T2 y Ht Ht'|T1 T2 T3 o Ht Ht' Hl]; subst.
  - exfalso. inversion Ht; subst. by eapply Hst.
  - destruct (Hterm _ _ Ht ltac:(done)) as (-> & -> & He). split; [done|]. eapply Hin; [exact Ht'| |by left].
    by rewrite app_nil_r.
  - destruct (Hterm _ _ Ht ltac:(done)) as (-> & -> & He). split; [done|]. eapply Hin; [exact Ht'|done|].
    by eapply event_loop_start.
Qed.
Lemma initiate_enters n s r s' ks0 b T ks k : reach ch U s → op_allowed ch U (OpInitiate n) s →
  call ch U (OpInitiate n) s = (r, s') → tr s' = tr s ++ under None ks0 ++ Obs b OReset :: T →
  Forall (λ k, quiet k = true) ks0 → spans None T ks k →
  StronglySorted (λ y z, exit_before ch z y) (map fst (built ks)) ∧
  ((k = None ∨ ∃ e, k = Some (OTake e)) →
    (∃ p, (ch_init ch, p) ∈ built ks) ∧
    ∀ y i, y ∈ built ks → i < nreg ch y.1 → ∃ z, z ∈ built ks ∧ region ch z.1 = (Some y.1, i)).
Proof.
  intros Hs Ha E ET Hq Hsp. destruct (initiate_call n s r s' ks0 b T Hs Ha E ET Hq) as (_ & ks' & k' & rest & H1 & H2 & H3 & _).
  destruct (spans_unique _ _ _ _ _ _ Hsp H1) as [<- <-]. destruct H2 as (_ & m & cs & _ & Hb).
  destruct (builds_entering ch Hwf _ _ _ _ _ Hb) as [_ _ Hso _ _ Hre _ _ Hreg]; [by apply (init_valid ch Hwf)|]. split.
  - rewrite built_app, built_lifes, map_app in Hso. by eapply StronglySorted_prefix.
  - intros Hk. destruct H3 as [[-> _]|[y ->]]; [|naive_solver]. rewrite app_nil_r, built_lifes in *. done.
Qed.

Lemma transit_one_action s t1 b p c d t2 ks : seen ch U s → tr s = t1 ++ Obs b (OTransit p c d) :: t2 →
  spans b t2 ks (Some (OResult p c RDiscard)) →
  ∃ e, b = Some e ∧ (actions ks = [] ∨ ∃ cx n, actions ks = [OAction cx n e]).
Proof.
  intros Hs E Hsp. destruct (transit_actions _ _ _ _ _ _ _ _ Hs E Hsp) as (e & cx & [n|] & -> & ->); simpl; eauto 6.
Qed.
Lemma terminate_exits s r s' : reach ch U s → call ch U OpTerminate s = (r, s') →
  ∃ ks k T, tr s' = tr s ++ under None ks ++ Obs None k :: T ∧ Forall (λ k, quiet k = true) ks ∧
    ((∃ y, k = OThrow y) ∨ (∃ c x, k = ORefused (ARecord c x)) ∨
     k = OReset ∧ T = [] ∧ r = Ret tt ∧
     ∃ L, removals ks = flat_map (λ y : obj, [OExit y.2 y.1; ODtor y.2 y.1]) L ∧
       StronglySorted (λ y z : obj, exit_before ch y.1 z.1) L ∧ ∀ y, y ∈ L ↔ active s y).
Proof.
  intros Hs E. destruct (story_call s OpTerminate r s' Hs eq_refl) as (T & o' & H1 & ET & H3); [done|done|].
  assert (∃ ks k X, T = under None ks ++ Obs None k :: X ∧ Forall (λ k, quiet k = true) ks ∧
    ((∃ y, k = OThrow y) ∨ (∃ c x, k = ORefused (ARecord c x)) ∨ k = OReset ∧ X = [] ∧ r = Ret tt ∧ end_plan ch (tr s) true (lifes ks))) as (ks & k & X & -> & Hq & H).
  { assert (∀ y ks T', stops ch (end_plan ch (tr s) true) y ks → T = under None ks ++ T' →
      ∃ ks k X, T = under None ks ++ Obs None k :: X ∧ Forall (λ k, quiet k = true) ks ∧
      ((∃ y, k = OThrow y) ∨ (∃ c x, k = ORefused (ARecord c x)) ∨ k = OReset ∧ X = [] ∧ r = Ret tt ∧ end_plan ch (tr s) true (lifes ks))) as Hst.
    { intros y ks T' (k1 & g & k2 & rest & -> & F1 & _ & F2 & _ & F3) ->. destruct F2 as (L & _ & _ & F2).
      destruct (exits_refused _ _ _ _ _ _ F2 F3) as [->|(c & x & ->)].
      - exists k1, (OThrow y), (under None k2 ++ T'). rewrite under_app_, <-app_assoc. eauto.
      - exists k1, (ORefused (ARecord c x)), (under None (OThrow y :: k2) ++ T'). rewrite under_app_, <-app_assoc. split; [done|]. eauto 8. }
    simpl in H3. inversion H3 as [ks r' Hd|ks y T' r' Hd|ks y T' y' ks' Hd]; subst.
    - destruct Hd as (ks' & -> & Hg). exists ks', OReset, []. rewrite under_app_. split; [done|]. split; [apply Hg|].
      right. right. split_and!; try done; [by destruct r as [[]| | |]|apply Hg].
    - by eapply Hst.
    - by eapply Hst. }
  exists ks, k, X. split_and!; [done..|]. destruct H as [?|[?|(-> & -> & -> & L & HL & Hso & El)]]; [by left|by right; left|right; right].
  split_and!; try done. exists L. split_and!; [|done|].
  - by rewrite <-removals_lifes, El, removals_exits.
  - intros y. rewrite HL. symmetry. by apply (seen_active ch U Hwf HU s y), seen_reach.
Qed.
Lemma inside_first s t1 b k t2 p c : seen ch U s → tr s = t1 ++ Obs b k :: t2 → k = OExit p c ∨ k = ODtor p c →
  ∀ z p', encloses ch (Some c) z → OCtor p' z ∈ map ob t1 → ODtor p' z ∈ map ob t1.
Proof.
  intros Hs E Hk z p' Hz Hc. pose proof (seen_orderly ch U Hwf HU s Hs) as Ho.
  destruct (decide (ODtor p' z ∈ map ob t1)) as [|Hn]; [done|]. exfalso.
  apply (orderly_inside ch _ _ _ _ _ _ _ Ho E Hk (z, p')); [by split|exact Hz].
Qed.
End at_.
