(** What user code sees while it runs. *)
From stdpp Require Import relations.
From Verif Require Export Kept.

(** ** Traces *)
Lemma swap_out_in x y l : NoDup l → y ∈ swap_out x l ↔ y ∈ l ∧ y ≠ x.
Proof.
  intros Hd. destruct (decide (x ∈ l)) as [Hx|Hx].
  - apply elem_of_list_split in Hx as (l1 & l2 & ->). apply NoDup_app in Hd as (_ & Hd1 & Hd2).
    apply NoDup_cons in Hd2 as [Hn _].
    assert (x ∉ l1) as Hx1 by (intros H; apply (Hd1 _ H); left).
    rewrite swap_out_some by done.
    assert (y ∈ match last l2 with None => [] | Some z => z :: removelast l2 end ↔ y ∈ l2) as Hl.
    { destruct l2 as [|z l2 _] using rev_ind; [done|]. rewrite last_snoc, removelast_last.
      rewrite elem_of_cons, elem_of_app, elem_of_list_singleton. tauto. }
    rewrite elem_of_app, Hl, elem_of_app, elem_of_cons. split.
    + intros [H|H]; (split; [tauto|]); by intros ->.
    + tauto.
  - rewrite swap_out_none by done. split; [|tauto]. intros H. split; [done|]. by intros ->.
Qed.
Lemma swap_out_dup x l : NoDup l → NoDup (swap_out x l).
Proof.
  intros Hd. destruct (decide (x ∈ l)) as [Hx|Hx]; [|by rewrite swap_out_none].
  apply elem_of_list_split in Hx as (l1 & l2 & ->). pose proof Hd as (Hd0 & Hd1 & Hd2)%NoDup_app.
  apply NoDup_cons in Hd2 as [Hn Hd2].
  assert (x ∉ l1) as Hx1 by (intros H; apply (Hd1 _ H); left).
  rewrite swap_out_some by done. destruct l2 as [|z l2 _] using rev_ind; [by rewrite app_nil_r|].
  rewrite last_snoc, removelast_last. apply NoDup_app. split; [done|].
  apply NoDup_app in Hd2 as (H1 & H2 & _). split.
  - intros y Hy [->|Hy2]%elem_of_cons; apply (Hd1 _ Hy); right; apply elem_of_app; [right; left|by left].
  - apply NoDup_cons. split; [|done]. intros H. apply (H2 _ H). left.
Qed.

(** The states on the list: innermost states that are alive and whose exit() was not called. *)
Definition staying (t : list obs) (x : obj) : Prop := lives t x ∧ OExit x.2 x.1 ∉ map ob t.

Lemma orderly_prefix ch t u : orderly ch (t ++ u) → orderly ch t.
Proof. intros H t1 b k t2 ->. apply (H t1 b k (t2 ++ u)). by rewrite <-app_assoc. Qed.
Lemma orderly_last ch t b k : orderly ch (t ++ [Obs b k]) → orderly ch t ∧ entry_ok ch t k.
Proof. intros H. split; [by eapply orderly_prefix|]. by apply (H t b k []). Qed.

Lemma order_staying ch t : orderly ch t → NoDup (order_of ch t) ∧
  ∀ x, x ∈ order_of ch t ↔ is_leaf ch x.1 = true ∧ staying t x.
Proof.
  induction t as [|[b k] t IH] using rev_ind; intros Ho.
  { split; [apply NoDup_nil_2|]. intros x. split; [by intros ?%elem_of_nil|]. by intros (_ & [?%elem_of_nil _] & _). }
  apply orderly_last in Ho as [Ho Hk]. destruct (IH Ho) as [Hd Hi]. rewrite order_snoc.
  assert (∀ (P : Prop), (∀ p c, k ≠ OCtor p c) → (∀ p c, k ≠ OExit p c) → (∀ p c, k ≠ ODtor p c) →
    NoDup (order_of ch t) ∧ ∀ x, x ∈ order_of ch t ↔ is_leaf ch x.1 = true ∧ staying (t ++ [Obs b k]) x) as Hsame.
  { intros _ H1 H2 H3. split; [done|]. intros x. rewrite Hi. unfold staying. rewrite lives_snoc by done.
    rewrite map_app, elem_of_app. cbn [map ob]. rewrite elem_of_list_singleton. 
    split; [|tauto]. intros (Ha & Hb & Hc). split_and!; try done. intros [H|H]; [done|]. by apply (H2 x.2 x.1). }
  assert (∀ x, x ∈ order_of ch t → ∃ k, k ∈ map ob t ∧ about k = Some x) as Hab.
  { intros x (_ & [Hx _] & _)%Hi. eexists. split; [exact Hx|]. by destruct x. }
  destruct k; try (by apply (Hsame True)); simpl; clear Hsame.
  - destruct Hk as (Hf & _ & _).
    assert (∀ x, staying (t ++ [Obs b (OCtor p c)]) x ↔ staying t x ∨ x = (c, p)) as Hs.
    { intros x. unfold staying. rewrite lives_ctor by done. rewrite map_app, elem_of_app. cbn [map ob].
      rewrite elem_of_list_singleton. split.
      - intros [[H0| ->] Hn]; [left; split; [done|tauto]|by right].
      - intros [[H0 Hn]| ->]; [split; [by left|]; by intros [?|?]|]. split; [by right|]. intros [H0|H0]; [|done].
        by apply (Hf _ (c, p) H0). }
    destruct (is_leaf ch c) eqn:El.
    + split.
      * apply NoDup_app. split; [done|]. split; [|apply NoDup_singleton].
        intros x Hx ->%elem_of_list_singleton. destruct (Hab _ Hx) as (k & Hk & E). by apply (Hf _ _ Hk E).
      * intros x. rewrite elem_of_app, elem_of_list_singleton, Hi, Hs. split; [|tauto].
        intros [[? ?]| ->]; tauto.
    + split; [done|]. intros x. rewrite Hi, Hs. split; [tauto|]. intros [Hx [H| ->]]; [tauto|]. simpl in Hx. congruence.
  - split; [by apply swap_out_dup|]. intros x. rewrite swap_out_in, Hi by done. unfold staying. rewrite lives_snoc by done.
    rewrite map_app, elem_of_app. cbn [map ob]. rewrite elem_of_list_singleton. split.
    + intros [(Ha & Hb & Hc) Hn]. split_and!; try done. intros [H|H]; [done|]. apply Hn. destruct x. simpl in *. congruence.
    + intros (? & ? & Hn). split; [tauto|]. intros ->. apply Hn. by right.
  - split; [by apply swap_out_dup|]. intros x. rewrite swap_out_in, Hi by done. unfold staying. rewrite lives_dtor.
    rewrite map_app, elem_of_app. cbn [map ob]. rewrite elem_of_list_singleton. split.
    + intros [(Ha & Hb & Hc) Hn]. split_and!; try done. by intros [H|H].
    + intros (? & [? ?] & Hn). tauto.
Qed.

(** A state that is being left is destroyed before anything is constructed. *)
Lemma leaving_ends t b k u x : exits_destroy (t ++ Obs b k :: u) → OExit x.2 x.1 ∈ map ob t →
  user_call k = false → (∀ y, k ≠ OThrow y) → (∀ a, k ≠ ORefused a) → k ≠ ODtor x.2 x.1 → ODtor x.2 x.1 ∈ map ob t.
Proof.
  intros He Hx Hk1 Hk2 Hk4 Hk3. apply elem_of_list_fmap in Hx as ([b0 k0] & E0 & Hx). simpl in E0. subst k0.
  apply elem_of_list_split in Hx as (t1 & t2 & ->).
  destruct (He t1 b0 x.2 x.1 (t2 ++ Obs b k :: u)) as (v & th & b' & t3 & E & Hv & Hth); [by rewrite <-app_assoc|].
  assert (Forall (λ o, user_call (ob o) = true ∨ (∃ y, ob o = OThrow y) ∨ ∃ a, ob o = ORefused a) (v ++ th)) as Hvt.
  { apply Forall_app. split; [eapply Forall_impl; [exact Hv|]; by left|].
    destruct Hth as [-> |[(b'' & y & ->)|(b'' & z & y & ->)]]; repeat (constructor; [right; simpl; eauto|]); constructor. }
  rewrite app_assoc in E. revert E Hvt. generalize (v ++ th). clear -Hk1 Hk2 Hk3 Hk4. intros w E Hw.
  assert (ODtor x.2 x.1 ∈ map ob t2) as H.
  { revert w E Hw. induction t2 as [|o t2 IH]; intros [|o' w] E Hw; simpl in *.
    - by injection E as -> -> _.
    - injection E as <- _. apply Forall_cons in Hw as [[H|[[y H]|[y H]]] _]; simpl in H; [congruence|by destruct (Hk2 y)|by destruct (Hk4 y)].
    - injection E as -> _. left.
    - injection E as -> E. apply Forall_cons in Hw as [_ Hw]. right. by apply (IH w). }
  rewrite map_app. simpl. apply elem_of_app. right. by right.
Qed.

(** The outer states of a state that is alive are alive and are not being left. *)
Lemma lives_outer ch T : orderly ch T → exits_destroy T → ∀ t u, T = t ++ u → ∀ x q,
  lives t x → parent ch x.1 = Some q → ∃ p, staying t (q, p).
Proof.
  intros HO HE t. induction t as [|[b k] t IH] using rev_ind; intros u ET x q Hx Hp.
  { destruct Hx as [?%elem_of_nil _]. done. }
  rewrite <-app_assoc in ET. simpl in ET. specialize (IH _ ET).
  assert (entry_ok ch t k) as Hk by (by eapply HO).
  assert (∀ y, (∀ p c, k = OExit p c ∨ k = ODtor p c → y ≠ (c, p)) → staying t y → staying (t ++ [Obs b k]) y) as Hst.
  { intros y Hy [[H1 H2] H3]. unfold staying, lives. rewrite !map_app, !elem_of_app. cbn [map ob].
    rewrite !elem_of_list_singleton. split_and!; [by left|..].
    - intros [H|H]; [done|]. apply (Hy y.2 y.1); [by right|by destruct y].
    - intros [H|H]; [done|]. apply (Hy y.2 y.1); [by left|by destruct y]. }
  assert (lives t x ∨ k = OCtor x.2 x.1) as [Hx'|E].
  { destruct Hx as [H1 H2]. rewrite !map_app, !elem_of_app in *. cbn [map ob] in *.
    rewrite !elem_of_list_singleton in *. destruct H1 as [H1|H1]; [left; split; [done|tauto]|by right]. }
  - destruct (IH x q Hx' Hp) as [p Hq]. exists p. apply Hst; [|done]. intros p' c' Hk' [= -> ->].
    assert (∀ x, lives t x → parent ch x.1 ≠ Some c') as Hn by (by destruct Hk' as [-> | ->]; destruct Hk).
    by apply (Hn _ Hx').
  - subst k. destruct Hk as (_ & _ & Hq). destruct (Hq q Hp) as [p Hl]. exists p.
    apply Hst; [by intros ? ? [?|?]|]. split; [done|]. intros Hex. destruct Hl as [_ Hl]. apply Hl.
    rewrite ET in HE. by apply (leaving_ends _ _ _ _ (q, p) HE Hex).
Qed.
Lemma lives_encloses ch T t u : orderly ch T → exits_destroy T → T = t ++ u → ∀ o d c, encloses ch o c → o = Some d → ∀ p,
  lives t (c, p) → ∃ p', staying t (d, p').
Proof.
  intros HO HE ET o d c He. induction He as [c|o c q Hp He IH]; intros Eo p Hl.
  - by apply (lives_outer ch T HO HE t u ET (c, p) d Hl).
  - destruct (lives_outer ch T HO HE t u ET (c, p) q Hl Hp) as [p' [Hq _]]. by eapply IH.
Qed.

(** A class has at most one living object. *)
Lemma lives_one ch t : orderly ch t → ∀ x y, lives t x → lives t y → region ch x.1 = region ch y.1 → x = y.
Proof.
  induction t as [|[b k] t IH] using rev_ind; intros Ho x y Hx Hy Hr.
  { destruct Hx as [?%elem_of_nil _]. done. }
  apply orderly_last in Ho as [Ho Hk].
  assert (∀ z, lives (t ++ [Obs b k]) z → lives t z ∨ k = OCtor z.2 z.1) as Hz.
  { intros z [H1 H2]. rewrite !map_app, !elem_of_app in *. cbn [map ob] in *.
    rewrite !elem_of_list_singleton in *. destruct H1 as [H1|H1]; [left; split; [done|tauto]|by right]. }
  destruct (Hz x Hx) as [Hx'|Ex], (Hz y Hy) as [Hy'|Ey].
  - by apply IH.
  - subst k. destruct Hk as (_ & Hk & _). by destruct (Hk x Hx').
  - subst k. destruct Hk as (_ & Hk & _). by destruct (Hk y Hy').
  - rewrite Ex in Ey. destruct x, y. simpl in *. congruence.
Qed.
Lemma order_classes ch t : orderly ch t → NoDup (map fst (order_of ch t)).
Proof.
  intros Ho. destruct (order_staying ch t Ho) as [Hd Hi].
  assert (∀ x, x ∈ order_of ch t → lives t x) as Hl by (by intros x (_ & ? & _)%Hi).
  clear Hi. induction Hd as [|x l Hx Hd IH]; [apply NoDup_nil_2|]. simpl. apply NoDup_cons. split.
  - intros (y & Ey & Hy)%elem_of_list_fmap. destruct Hx.
    rewrite (lives_one ch t Ho x y); [done|apply Hl; left|apply Hl; by right|by rewrite Ey].
  - apply IH. intros y Hy. apply Hl. by right.
Qed.

(** ** The abstract machine *)
Section sight.
Context {W : Type} (ch : chart) (Hwf : wf_chart ch = true).
Notation A := (mst W acore).

(** What was seen when the log had [n] entries is the order in which the states were listed then. *)
Definition sights_ok (v : env W) : Prop :=
  ∀ n l, (n, l) ∈ sights v → n ≤ length (trace v) ∧ l = map fst (order_of ch (take n (trace v))).

Lemma sights_ext v v' u : sights v' = sights v → trace v' = trace v ++ u → sights_ok v → sights_ok v'.
Proof.
  intros Es Et H n l. rewrite Es, Et. intros [H1 H2]%H. rewrite app_length. split; [lia|].
  by rewrite take_app_le.
Qed.
Lemma sights_log k v : sights_ok v → sights_ok (log k v).
Proof. by eapply sights_ext. Qed.
Lemma sights_usteps l v v' : rtc (ustep1 l) v v' → l = map fst (order_of ch (trace v)) → sights_ok v → sights_ok v'.
Proof.
  induction 1 as [v|v v1 v2 H1 _ IH]; [done|]. intros El H. apply IH.
  - destruct H1 as [w v|w v|[] v]; try done; simpl; rewrite order_app; try done; by repeat constructor.
  - destruct H1 as [w v|w v|x v]; [|done|].
    + intros n l'. simpl. rewrite elem_of_app, elem_of_list_singleton. intros [Hn|[= -> ->]]; [by apply H|].
      split; [done|]. by rewrite firstn_all.
    + destruct x; by eapply sights_ext; [| |exact H].
Qed.
Lemma sights_rel x a (v : env W) : sights_ok v → sights_ok (rel_env x a v).
Proof. unfold rel_env. case_bool_decide; [|done]. intros Hv. by eapply sights_ext; [| |exact Hv]. Qed.
Lemma sights_refuse g (v : env W) : sights_ok v → sights_ok (refuse ch g v).
Proof.
  destruct g as [[c|c|c [z|]|e]|]; try (by apply sights_log); [|done]. intros H. apply sights_log.
  unfold store_part, store_upto. by destruct (stores_shallow _ _), (stores_deep _ _).
Qed.
Lemma sights_store c (v : env W) : sights_ok v → sights_ok (store_history ch c v).
Proof. unfold store_history, store_upto. by destruct (stores_shallow _ _), (stores_deep _ _). Qed.

(** Nothing is listed twice. *)
Lemma order_out t b b' k k' x u : orderly ch t → (k = OExit x.2 x.1 ∨ k = ODtor x.2 x.1) →
  Forall (λ o, still_order (ob o) = true) u → k' = ODtor x.2 x.1 →
  order_of ch (t ++ [Obs b k]) = swap_out x (order_of ch t) ∧
  order_of ch (((t ++ [Obs b k]) ++ u) ++ [Obs b' k']) = swap_out x (order_of ch t).
Proof.
  intros Ht Hk Hu ->. destruct (order_staying ch t Ht) as [Hd _].
  assert (order_of ch (t ++ [Obs b k]) = swap_out x (order_of ch t)) as E.
  { rewrite order_snoc. destruct x. by destruct Hk as [-> | ->]. }
  split; [done|]. rewrite order_snoc, order_app, E by done. simpl.
  rewrite <-(surjective_pairing x). apply swap_out_none. rewrite swap_out_in by done. tauto.
Qed.

Lemma sights_step (s s' : A) : tracks ch s → replays ch s → step ch s s' → sights_ok (en s) → sights_ok (en s').
Proof.
  intros HT HR Hs. pose proof (rp_ord _ _ HR) as Ho.
  assert (abs_leaves (core s) = map fst (order_of ch (trace (en s)))) as Hl by (unfold abs_leaves; by rewrite Ho).
  destruct Hs as
    [s s' Hj|s v Hu|s u|s b|s b|s t|s k Hk Hok|s c|s c|s c v Hoc Hq Hu|s c v y Hoc Hq Hu|s x v Hx Hkd Hxo Hu|s x v v' Hx Hkd Hxo Hu Hu'|s x v g y v' Hx Hkd Hxo Hg Hu Hu'|s x Hx|s e q Hq|s e|s];
    intros H; cbn [core en] in *; try done;
    try (by eapply sights_ext; [| |exact H]; simpl; try done; by rewrite app_nil_r).
  - destruct Hj. apply HT.
  - by eapply sights_usteps.
  - apply sights_log. by eapply sights_usteps.
  - do 2 apply sights_log. by eapply sights_usteps.
  - destruct (order_out (trace (en s)) (trig (en s)) None (ODtor x.2 x.1) _ x [] (tk_orderly _ _ HT)
      (or_intror eq_refl) (Forall_nil_2 _) eq_refl) as [E _].
    apply sights_rel. eapply sights_usteps; [exact Hu| |by apply sights_log].
    simpl. rewrite E. unfold abs_leaves. by rewrite swap_out_unlisted, Ho.
  - pose proof (usteps_user _ _ _ Hu) as (u & Ht & Hcu & Htg). simpl in Ht, Htg. apply user_plain in Hcu as [_ Hcu].
    destruct (order_out (trace (en s)) (trig (en s)) (trig (store_history ch x.1 v)) (OExit x.2 x.1) _ x u (tk_orderly _ _ HT)
      (or_introl eq_refl) (Forall_impl _ _ _ Hcu (λ o H, proj1 H)) eq_refl) as [E E'].
    assert (trace (store_history ch x.1 v) = trace v) as Hst.
    { unfold store_history, store_upto. by destruct (stores_shallow _ _), (stores_deep _ _). }
    apply sights_rel. eapply sights_usteps; [exact Hu'| |].
    + simpl. rewrite Hst, Ht, E'. unfold abs_leaves. by rewrite swap_out_unlisted, Ho.
    + apply sights_log, sights_store. eapply sights_usteps; [exact Hu| |by apply sights_log].
      simpl. rewrite E. unfold abs_leaves. by rewrite swap_out_unlisted, Ho.
  - pose proof (usteps_user _ _ _ Hu) as (u & Ht & Hcu & Htg). simpl in Ht, Htg. apply user_plain in Hcu as [_ Hcu].
    set (th := match g with Some a => [Obs (trig v) (ORefused a)] | None => [] end ++ [Obs (trig v) (OThrow y)]).
    destruct (order_out (trace (en s)) (trig (en s)) (trig v) (OExit x.2 x.1) (ODtor x.2 x.1) x (u ++ th)
      (tk_orderly _ _ HT) (or_introl eq_refl)) as [E E']; [|done|].
    { apply Forall_app. split; [exact (Forall_impl _ _ _ Hcu (λ o H, proj1 H))|]. unfold th. destruct g; by repeat constructor. }
    apply sights_rel. eapply sights_usteps; [exact Hu'| |].
    + change (trace (log ?k ?v)) with (trace v ++ [Obs (trig v) k]). rewrite refuse_trace. cbn [log trig].
      rewrite (proj1 (refuse_fields ch g v)). fold th. unfold abs_leaves.
      rewrite Ht, <-!app_assoc in *. simpl in *. rewrite E', swap_out_unlisted, Ho. done.
    + do 2 apply sights_log. assert (sights_ok v); [|by apply sights_refuse]. eapply sights_usteps; [exact Hu| |by apply sights_log].
      simpl. rewrite E. unfold abs_leaves. by rewrite swap_out_unlisted, Ho.
Qed.
Lemma sights_steps (s s' : A) : tracks ch s → replays ch s → rtc (step ch) s s' → sights_ok (en s) → sights_ok (en s').
Proof.
  intros HT HR Hs. induction Hs as [s|s s1 s2 H1 _ IH]; [done|]. intros H.
  apply IH; [by eapply tracks_step|by eapply replays_step|by eapply sights_step].
Qed.
End sight.

(** ** Machines *)
Section seen.
Context {W : Type} (ch : chart) (U : user W).
Context (Hwf : wf_chart ch = true) (HU : user_ok ch U).

Lemma seen_sights s : seen ch U s → sights_ok ch (en s).
Proof.
  intros (a & Ha & Et & Ee & _)%(seen_replays ch U Hwf HU). rewrite Ee.
  destruct (bk_steps _ _ _ Ha) as [w Hw]. eapply sights_steps; [..|exact Hw|].
  - exact Hwf.
  - by apply tracks_fresh.
  - by apply replays_fresh.
  - intros n l ?%elem_of_nil. done.
Qed.
End seen.
