(** The trace tells which objects are alive. *)
From stdpp Require Import relations.
From Verif Require Export Steps TraceSpec.

Lemma snoc_split {A} (t : list A) o t1 o' t2 : t ++ [o] = t1 ++ o' :: t2 →
  (t2 = [] ∧ t1 = t ∧ o' = o) ∨ ∃ t2', t2 = t2' ++ [o] ∧ t = t1 ++ o' :: t2'.
Proof.
  destruct (rev t2) as [|z l] eqn:Hr.
  - assert (t2 = []) as -> by (destruct t2; [done|]; apply (f_equal (@length _)) in Hr; rewrite rev_length in Hr; done).
    intros H. left. apply app_inj_tail in H as [-> ->]. done.
  - intros H. right. assert (t2 = rev l ++ [z]) as ->.
    { rewrite <-(rev_involutive t2), Hr. done. }
    rewrite app_comm_cons, app_assoc in H. apply app_inj_tail in H as [-> ->]. eauto.
Qed.

Lemma orderly_nil ch : orderly ch [].
Proof. intros t1 b k t2 H. by destruct t1. Qed.
Lemma orderly_snoc ch t b k : orderly ch t → entry_ok ch t k → orderly ch (t ++ [Obs b k]).
Proof.
  intros Ht Hk t1 b' k' t2 H. apply snoc_split in H as [(-> & -> & [= -> ->])|(t2' & -> & ->)]; [done|].
  by eapply Ht.
Qed.
Lemma entry_ok_none ch t k : about k = None → entry_ok ch t k.
Proof. intros H. destruct k; simpl in *; done. Qed.

Lemma exits_destroy_nil : exits_destroy [].
Proof. intros t1 b p c t2 H. by destruct t1. Qed.
Lemma exits_destroy_snoc t b k : exits_destroy t → (∀ p c, k ≠ OExit p c) → exits_destroy (t ++ [Obs b k]).
Proof.
  intros Ht Hk t1 b' p c t2 H. apply snoc_split in H as [(-> & -> & [= _ Hk'])|(t2' & -> & ->)]; [by destruct (Hk p c)|].
  destruct (Ht _ _ _ _ _ eq_refl) as (u & th & b'' & t3 & -> & H1 & H2).
  exists u, th, b'', (t3 ++ [Obs b k]). rewrite <-!app_assoc. simpl. done.
Qed.
Lemma exits_destroy_exit t b p c u th b' : exits_destroy t →
  Forall (λ o, user_call (ob o) = true) u → thrown_out c th →
  exits_destroy (t ++ [Obs b (OExit p c)] ++ u ++ th ++ [Obs b' (ODtor p c)]).
Proof.
  intros Ht Hu Hth. 
  assert (∀ l, Forall (λ o, ∀ p c, ob o ≠ OExit p c) l → ∀ t1 b0 p0 c0 t2,
    (t ++ [Obs b (OExit p c)]) ++ l = t1 ++ Obs b0 (OExit p0 c0) :: t2 →
    (t1 = t ∧ p0 = p ∧ c0 = c ∧ t2 = l) ∨ ∃ t2', t = t1 ++ Obs b0 (OExit p0 c0) :: t2' ∧ t2 = t2' ++ Obs b (OExit p c) :: l) as Hl.
  { intros l. induction l as [|o l IH] using rev_ind; intros HF t1 b0 p0 c0 t2 H.
    - rewrite app_nil_r in H. apply snoc_split in H as [(-> & -> & [= -> -> ->])|(t2' & -> & ->)]; [by left|].
      right. eauto.
    - apply Forall_app in HF as [HF Ho]. rewrite app_assoc in H.
      apply snoc_split in H as [(-> & _ & <-)|(t2' & -> & H)].
      + apply Forall_cons in Ho as [Ho _]. by destruct (Ho p0 c0).
      + apply IH in H as [(-> & -> & -> & ->)|(t2'' & -> & ->)]; [by left|right|done].
        exists t2''. rewrite <-app_assoc. done. }
  intros t1 b0 p0 c0 t2 H. rewrite app_assoc in H. apply Hl in H as [(-> & -> & -> & ->)|(t2' & -> & ->)].
  - exists u, th, b', []. done.
  - destruct (Ht _ _ _ _ _ eq_refl) as (u' & th' & b'' & t3 & -> & H1 & H2).
    exists u', th', b'', (t3 ++ Obs b (OExit p c) :: u ++ th ++ [Obs b' (ODtor p c)]).
    rewrite <-!app_assoc. simpl. done.
  - apply Forall_app. split; [|apply Forall_app; split].
    + eapply Forall_impl; [exact Hu|]. intros [b1 k1] Ho p' c' E. simpl in *. by subst.
    + destruct Hth as [->|[(b'' & y & ->)|(b'' & z & y & ->)]]; by repeat constructor.
    + by repeat constructor.
Qed.

Lemma orderly_app ch t u : orderly ch t → Forall (λ o, about (ob o) = None) u → orderly ch (t ++ u).
Proof.
  intros Ht Hu. revert t Ht. induction u as [|[b k] u IH]; intros t Ht; [by rewrite app_nil_r|].
  apply Forall_cons in Hu as [Hk Hu]. rewrite cons_middle, app_assoc. apply IH; [done|].
  apply orderly_snoc; [done|]. by apply entry_ok_none.
Qed.
Lemma exits_destroy_app t u : exits_destroy t → Forall (λ o, ∀ p c, ob o ≠ OExit p c) u → exits_destroy (t ++ u).
Proof.
  intros Ht Hu. revert t Ht. induction u as [|[b k] u IH]; intros t Ht; [by rewrite app_nil_r|].
  apply Forall_cons in Hu as [Hk Hu]. rewrite cons_middle, app_assoc. apply IH; [done|].
  by apply exits_destroy_snoc.
Qed.

Lemma lives_app t u x : Forall (λ o, about (ob o) = None) u → lives (t ++ u) x ↔ lives t x.
Proof.
  intros Hu. unfold lives. rewrite map_app, !elem_of_app.
  assert (∀ k, about k ≠ None → k ∉ map ob u) as Hn.
  { intros k Hk Hin. apply elem_of_list_fmap in Hin as (o & -> & Hin). rewrite Forall_forall in Hu.
    by apply Hk, Hu. }
  pose proof (Hn (OCtor x.2 x.1)) as H1. pose proof (Hn (ODtor x.2 x.1)) as H2. simpl in *.
  split; intros [H3 H4]; split.
  - destruct H3; [done|]. by destruct H1.
  - tauto.
  - by left.
  - intros [H5|H5]; [done|]. by destruct H2.
Qed.
Lemma lives_snoc t b k x : (∀ p c, k ≠ OCtor p c) → (∀ p c, k ≠ ODtor p c) → lives (t ++ [Obs b k]) x ↔ lives t x.
Proof.
  intros H1 H2. unfold lives. rewrite map_app, !elem_of_app. cbn [map ob].
  rewrite !elem_of_list_singleton. split; intros [H3 H4]; split; try tauto.
  - destruct H3 as [|H3]; [done|]. by destruct (H1 x.2 x.1).
  - intros [H5|H5]; [done|]. by destruct (H2 x.2 x.1).
Qed.
Lemma lives_ctor t b p c x : (∀ k y, k ∈ map ob t → about k = Some y → y.2 ≠ p) →
  lives (t ++ [Obs b (OCtor p c)]) x ↔ lives t x ∨ x = (c, p).
Proof.
  intros Hf. unfold lives. rewrite map_app, !elem_of_app. cbn [map ob].
  rewrite !elem_of_list_singleton. split.
  - intros [[H1|H1] H2]; [left; tauto|]. right. destruct x. simpl in *. congruence.
  - intros [[H1 H2]|Hx].
    + split; [by left|]. intros [H3|H3]; done.
    + subst x. simpl. split; [by right|]. intros [H|H]; [|done].
      by apply (Hf _ (c, p) H).
Qed.
Lemma lives_dtor t b p c x : lives (t ++ [Obs b (ODtor p c)]) x ↔ lives t x ∧ x ≠ (c, p).
Proof.
  unfold lives. rewrite map_app, !elem_of_app. cbn [map ob]. rewrite !elem_of_list_singleton. split.
  - intros [[H1|H1] H2]; [|done]. split; [tauto|]. intros ->. apply H2. by right.
  - intros [[H1 H2] H3]. split; [by left|]. intros [H4|H4]; [done|]. destruct x. simpl in *. congruence.
Qed.

Section tracks.
Context {W : Type} (ch : chart) (Hwf : wf_chart ch = true).
Notation S := (mst W acore).
Notation alive := (alive ch).
Notation step := (step (W:=W) ch).

Record tracks (s : S) : Prop := {
  tk_sane : sane ch (core s);
  tk_alive x : alive (core s) x ↔ lives (trace (en s)) x;
  tk_fresh k x : k ∈ map ob (trace (en s)) → about k = Some x → x.2 < anxt (core s);
  tk_orderly : orderly ch (trace (en s));
  tk_exits : exits_destroy (trace (en s)) }.

(** What user code does to the environment. *)
Lemma usteps_trace l (v v' : env W) : rtc (ustep1 l) v v' →
  trig v' = trig v ∧ full v' = full v ∧ ∃ u, trace v' = trace v ++ u ∧
    Forall (λ o, ob_trig o = trig v ∧ user_call (ob o) = true) u.
Proof.
  induction 1 as [v|v v1 v2 H1 _ (IH1 & IH2 & u & IH3 & IH4)].
  - split_and!; [done..|]. exists []. by rewrite app_nil_r.
  - assert (trig v1 = trig v ∧ full v1 = full v ∧ ∃ u, trace v1 = trace v ++ u ∧
      Forall (λ o, ob_trig o = trig v ∧ user_call (ob o) = true) u) as (E1 & E2 & u1 & E3 & E4).
    { destruct H1 as [w v|w v|x v]; [split_and!; [done..|]; exists []; by rewrite app_nil_r..|].
      destruct x as [e|c k|c k]; simpl; (split_and!; [done..|]; eexists; split; [done|]; by repeat constructor). }
    split_and!; [congruence..|]. exists (u1 ++ u). rewrite IH3, E3, app_assoc. split; [done|].
    rewrite E1 in IH4. by apply Forall_app.
Qed.

Lemma user_call_about u : Forall (λ o, user_call (ob o) = true) u → Forall (λ o, about (ob o) = None) u.
Proof. intros H. eapply Forall_impl; [exact H|]. intros [b k] Hk. by destruct k. Qed.
Lemma user_call_exit u : Forall (λ o, user_call (ob o) = true) u → Forall (λ o, ∀ p c, ob o ≠ OExit p c) u.
Proof. intros H. eapply Forall_impl; [exact H|]. intros [b k] Hk p c. by destruct k. Qed.

Lemma sane_same a a' : sane ch a → occ a' = occ a → ord a' = ord a → sane ch a'.
Proof.
  intros [H1 H2 H3 H4] Ho Hr. split; unfold regs, Abs.alive in *; rewrite ?Ho, ?Hr; done.
Qed.

(** Appending entries that are about no object. *)
Lemma tracks_app s a v u :
  tracks s → occ a = occ (core s) → ord a = ord (core s) → anxt (core s) ≤ anxt a → trace v = trace (en s) ++ u →
  Forall (λ o, about (ob o) = None) u → tracks (MSt a v).
Proof.
  intros [T1 T2 T3 T4 T5] Ho Hor Hn Ht Hu. split; cbn [core en].
  - by apply (sane_same (core s)).
  - intros x. unfold Abs.alive. rewrite Ho, Ht, lives_app by done. apply T2.
  - intros k x. rewrite Ht, map_app, elem_of_app. intros [Hk|Hk] Hx.
    + specialize (T3 _ _ Hk Hx). lia.
    + apply elem_of_list_fmap in Hk as (o & -> & Hk). rewrite Forall_forall in Hu. apply Hu in Hk. congruence.
  - rewrite Ht. by apply orderly_app.
  - rewrite Ht. apply exits_destroy_app; [done|]. eapply Forall_impl; [exact Hu|]. intros [b k] Hk p c E.
    simpl in *. by subst.
Qed.
Lemma tracks_same s a v :
  tracks s → occ a = occ (core s) → ord a = ord (core s) → anxt (core s) ≤ anxt a → trace v = trace (en s) →
  tracks (MSt a v).
Proof.
  intros H1 H2 H2' H3 H4. apply (tracks_app s a v []); try done. by rewrite app_nil_r.
Qed.

Lemma no_kids a x y : kids ch a x = [] → alive a y → parent ch y.1 ≠ Some x.
Proof.
  intros Hk Hy Hp. assert (y ∈ kids ch a x) as H; [|rewrite Hk in H; by apply elem_of_nil in H].
  unfold kids. apply elem_of_list_omap. exists (pos ch y.1). split.
  - apply elem_of_seq. split; [lia|]. by apply (pos_lt ch Hwf).
  - unfold Abs.alive, region in Hy. by rewrite Hp in Hy.
Qed.

(** A destructor call, with the entries [pre] about the same object just before. *)
Lemma tracks_dtor s x pre v :
  tracks s → alive (core s) x → kids ch (core s) x.1 = [] → x ∉ ord (unlisted x (core s)) →
  trace v = trace (en s) ++ pre ++ [Obs (trig (en s)) (ODtor x.2 x.1)] →
  orderly ch (trace (en s) ++ pre) →
  exits_destroy (trace (en s) ++ pre ++ [Obs (trig (en s)) (ODtor x.2 x.1)]) →
  Forall (λ o, about (ob o) = None ∨ ob o = OExit x.2 x.1) pre →
  tracks (MSt (destroyed ch x (unlisted x (core s))) v).
Proof.
  intros [T1 T2 T3 T4 T5] Hx Hkd Hxo Ht Hor Hex Hpre. pose proof T1 as [S1 S2 S3 S4].
  assert (∀ y, lives (trace (en s) ++ pre) y ↔ lives (trace (en s)) y) as Hl.
  { intros y. clear -Hpre. induction pre as [|[b k] pre IH] using rev_ind; [by rewrite app_nil_r|].
    apply Forall_app in Hpre as [Hpre Hk]. apply Forall_cons in Hk as [Hk _]. simpl in Hk.
    rewrite app_assoc, lives_snoc; [by apply IH|intros p c ->; by destruct Hk..]. }
  assert (occ (unlisted x (core s)) = occ (core s) ∧ anxt (unlisted x (core s)) = anxt (core s)) as [Eo En].
  { unfold unlisted. by destruct (list_find _ _) as [[]|]. }
  assert (∀ r, occ (destroyed ch x (unlisted x (core s))) !! r = if decide (r = region ch x.1) then None else occ (core s) !! r) as Ho.
  { intros r. simpl. rewrite Eo. destruct (decide _) as [->|]; [by rewrite lookup_delete|by rewrite lookup_delete_ne]. }
  assert (∀ y, alive (destroyed ch x (unlisted x (core s))) y ↔ alive (core s) y ∧ y ≠ x) as Hal.
  { intros y. unfold Abs.alive. rewrite Ho. unfold Abs.alive in Hx. destruct (decide _) as [E|E].
    - split; [done|]. intros [Hy Hne]. rewrite E, Hx in Hy. congruence.
    - split; [|tauto]. intros Hy. split; [done|]. intros ->. by apply E. }
  split; cbn [core en].
  - split.
    + intros r y. rewrite Ho. destruct (decide _); [done|]. apply S1.
    + intros y q Hy Hp. apply Hal in Hy as [Hy Hne]. destruct (S2 y q Hy Hp) as [p Hq]. exists p. apply Hal.
      split; [done|]. intros E. subst x. by eapply (no_kids _ q y).
    + intros y Hy. rewrite Hal. change (y ∈ ord (unlisted x (core s))) in Hy.
      assert (y ≠ x) as Hne by (intros ->; done). rewrite unlisted_ord in Hy by done. destruct (S3 y (proj1 Hy)). done.
    + change (NoDup (ord (unlisted x (core s)))). by apply NoDup_unlisted.
  - intros y. rewrite Hal, Ht, app_assoc, lives_dtor, Hl, <-T2. by destruct x.
  - intros k y. rewrite Ht, !map_app, !elem_of_app. simpl. rewrite En. intros [Hk|[Hk|Hk]] Hy; simpl.
    + by eapply T3.
    + apply elem_of_list_fmap in Hk as (o & -> & Hk). rewrite Forall_forall in Hpre. apply Hpre in Hk as [Hk|Hk]; [congruence|].
      rewrite Hk in Hy. injection Hy as <-. apply T2 in Hx as [Hx _]. by eapply (T3 _ (_, _) Hx).
    + apply elem_of_list_singleton in Hk. simpl in Hk. subst. injection Hy as <-. apply T2 in Hx as [Hx _]. by eapply (T3 _ (_, _) Hx).
  - rewrite Ht, app_assoc. apply orderly_snoc; [done|]. split; [apply Hl, T2; by destruct x|].
    intros y Hy. apply Hl, T2 in Hy. by eapply no_kids.
  - by rewrite Ht.
Qed.

Lemma tracks_rel s x a v : tracks (MSt a v) → tracks (MSt a (rel_env x s v)).
Proof.
  intros H. unfold rel_env. case_bool_decide; [|done].
  eapply tracks_app; [exact H|done..|by repeat constructor].
Qed.
Lemma tracks_usteps l a v v' : tracks (MSt a v) → rtc (ustep1 l) v v' → tracks (MSt a v').
Proof.
  intros H Hu. apply usteps_trace in Hu as (_ & _ & u & Hu & HF). eapply tracks_app; [exact H|done|done|done|exact Hu|].
  apply user_call_about. eapply Forall_impl; [exact HF|]. by intros ? [].
Qed.

Lemma tracks_step s s' : tracks s → step s s' → tracks s'.
Proof.
  intros HT Hs. destruct Hs as
    [s s' Hj|s v Hu|s u|s b|s b|s t|s k Hk Hok|s c|s c|s c v Ho Hq Hu|s c v y Ho Hq Hu|s x v Hx Hkd Hxo Hu|s x v v' Hx Hkd Hxo Hu Hu'|s x v g y v' Hx Hkd Hxo Hg Hu Hu'|s x Hx|s e q Hq|s e|s].
  - destruct Hj. apply HT.
  - rewrite <-(mst_eta s) in HT. by eapply tracks_usteps.
  - by eapply tracks_same.
  - by eapply tracks_same.
  - by eapply tracks_same.
  - by eapply tracks_same.
  - destruct HT as [T1 T2 T3 T4 T5].
    assert (∀ x, about k = Some x → alive (core s) x) as Ha.
    { intros x Hx. destruct k; try done; simpl in *; injection Hx as <-; done. }
    split; cbn [core en]; try done; simpl.
    + intros x. rewrite lives_snoc; [apply T2|by intros p c ->..].
    + intros k' x. rewrite map_app, elem_of_app. intros [Hk'|Hk'] Hx; [by eapply T3|].
      apply elem_of_list_singleton in Hk'. simpl in Hk'. subst k'. apply Ha, T2 in Hx as [Hx _].
      by eapply (T3 _ (_, _) Hx).
    + apply orderly_snoc; [done|]. destruct k; try done; intros x Hx; apply T2, Ha, Hx.
    + apply exits_destroy_snoc; [done|]. intros p c ->. done.
  - eapply tracks_app; [exact HT|done|done|done|done|]. by repeat constructor.
  - eapply tracks_app; [exact HT|done|done|done|done|]. by repeat constructor.
  - (* constructor *)
    rewrite <-(mst_eta s) in HT. pose proof (tracks_usteps _ _ _ _ HT Hu) as [T1 T2 T3 T4 T5]. cbn [core en] in *.
    assert (∀ k y, k ∈ map ob (trace v) → about k = Some y → y.2 ≠ anxt (core s)) as Hf.
    { intros k y Hk Hy. specialize (T3 _ _ Hk Hy). lia. }
    set (x := (c, anxt (core s))).
    assert (occ (listed ch x (created ch x (core s))) = <[region ch c := x]> (occ (core s)) ∧
            anxt (listed ch x (created ch x (core s))) = anxt (core s) + 1) as [Eo En].
    { unfold listed. by destruct (is_leaf _ _). }
    assert (∀ y, alive (listed ch x (created ch x (core s))) y ↔ alive (core s) y ∨ y = x) as Hal.
    { intros y. unfold Abs.alive. rewrite Eo. destruct (decide (region ch c = region ch y.1)) as [E|Hne].
      - rewrite E, lookup_insert, <-E, Ho. split; [intros [= <-]; by right|]. intros [H| ->]; [done|done].
      - rewrite lookup_insert_ne by done. split; [by left|]. intros [H| ->]; [done|]. by destruct Hne. }
    split; cbn [core en].
    + destruct T1 as [S1 S2 S3 S4].
      assert (x ∉ ord (core s)) as Hxo.
      { intros Hx. apply S3 in Hx as [_ Hx]. unfold Abs.alive in Hx. simpl in Hx. congruence. }
      split.
      * intros r y. rewrite Eo. destruct (decide (region ch c = r)) as [<-|Hne]; [rewrite lookup_insert|rewrite lookup_insert_ne by done; apply S1].
        by intros [= <-].
      * intros y q Hy Hp. apply Hal in Hy as [Hy| ->].
        -- destruct (S2 y q Hy Hp) as [p H]. exists p. apply Hal. by left.
        -- destruct (Hq q Hp) as [p H]. exists p. apply Hal. by left.
      * intros y. rewrite Hal. unfold listed. destruct (is_leaf ch x.1) eqn:El; [|intros Hy; apply S3 in Hy as []; auto].
        cbn [set_ord ord]. rewrite elem_of_app, elem_of_list_singleton. intros [Hy| ->]; [apply S3 in Hy as []; auto|auto].
      * unfold listed. destruct (is_leaf ch x.1) eqn:El; [|done]. cbn [set_ord ord]. apply NoDup_app. split_and!; [done| |apply NoDup_singleton].
        intros y Hy ->%elem_of_list_singleton. done.
    + intros y. simpl. rewrite lives_ctor by done. rewrite Hal, <-T2. done.
    + intros k y. simpl. rewrite En. rewrite map_app, elem_of_app. intros [Hk|Hk] Hy; [specialize (T3 _ _ Hk Hy); lia|].
      apply elem_of_list_singleton in Hk. simpl in Hk. subst. injection Hy as <-. simpl. lia.
    + apply orderly_snoc; [done|]. split_and!; [done|..].
      * intros y Hx E. apply T2 in Hx. unfold Abs.alive in Hx. rewrite E in Hx. congruence.
      * intros q Hp. destruct (Hq q Hp) as (p & Hp'). exists p. by apply T2.
    + by apply exits_destroy_snoc.
  - (* constructor throws *)
    rewrite <-(mst_eta s) in HT. pose proof (tracks_usteps _ _ _ _ HT Hu) as [T1 T2 T3 T4 T5]. cbn [core en] in *.
    assert (∀ k y, k ∈ map ob (trace v) → about k = Some y → y.2 ≠ anxt (core s)) as Hf.
    { intros k y' Hk Hy. specialize (T3 _ _ Hk Hy). lia. }
    split; cbn [core en]; simpl.
    + by apply (sane_same (core s)).
    + intros x. rewrite !lives_snoc by done. apply T2.
    + intros k x. rewrite !map_app. cbn [map ob]. rewrite !elem_of_app, !elem_of_list_singleton. intros [[Hk| ->]| ->] Hx; [|done|].
      * specialize (T3 _ _ Hk Hx). lia.
      * injection Hx as <-. simpl. lia.
    + apply orderly_snoc; [by apply orderly_snoc|]. split_and!.
      * simpl. intros k x.
        rewrite map_app, elem_of_app. cbn [map ob]. rewrite elem_of_list_singleton.
        intros [Hk| ->] Hx; [|done]. by eapply Hf.
      * intros x Hx E. rewrite lives_snoc in Hx by done. apply T2 in Hx. unfold Abs.alive in Hx. rewrite E in Hx. congruence.
      * intros q Hp. destruct (Hq q Hp) as (p & Hp'). exists p. rewrite lives_snoc by done. by apply T2.
    + apply exits_destroy_snoc; [|done]. by apply exits_destroy_snoc.
  - apply tracks_rel. eapply tracks_usteps; [|exact Hu]. eapply (tracks_dtor _ _ []); [done|done|done|done|done|..].
    + rewrite app_nil_r. apply HT.
    + simpl. apply exits_destroy_snoc; [apply HT|done].
    + constructor.
  - apply tracks_rel. eapply tracks_usteps; [|exact Hu'].
    apply usteps_trace in Hu as (Htr & _ & u & Ht & Huc). simpl in Htr, Ht.
    assert (Forall (λ o, user_call (ob o) = true) u) as Huc'.
    { eapply Forall_impl; [exact Huc|]. by intros ? []. }
    assert (trace (store_history ch x.1 v) = trace v ∧ trig (store_history ch x.1 v) = trig v) as [Hst Hstt].
    { unfold store_history, store_upto. by destruct (stores_shallow _ _), (stores_deep _ _). }
    eapply (tracks_dtor _ _ (Obs (trig (en s)) (OExit x.2 x.1) :: u)); [done|done|done|done|..].
    + simpl. rewrite Hst, Hstt, Htr, Ht, <-!app_assoc. done.
    + rewrite cons_middle, app_assoc. apply orderly_app; [|by apply user_call_about].
      apply orderly_snoc; [apply HT|]. split; [apply HT; by destruct x|].
      intros y Hy. apply HT in Hy. by eapply no_kids.
    + apply (exits_destroy_exit _ _ _ _ u []); [apply HT|done|by left].
    + constructor; [by right|]. eapply Forall_impl; [by apply user_call_about|]. by left.
  - apply tracks_rel. eapply tracks_usteps; [|exact Hu'].
    apply usteps_trace in Hu as (Htr & _ & u & Ht & Huc). simpl in Htr, Ht.
    assert (Forall (λ o, user_call (ob o) = true) u) as Huc'.
    { eapply Forall_impl; [exact Huc|]. by intros ? []. }
    pose proof (refuse_trace ch g (OThrow y) v) as Hrt. destruct (refuse_fields ch g v) as (Hrg & _).
    set (th := match g with Some a => [Obs (trig (en s)) (ORefused a)] | None => [] end ++ [Obs (trig (en s)) (OThrow y)]).
    assert (Forall (λ o, about (ob o) = None) th) as Hth by (destruct g; by repeat constructor).
    eapply (tracks_dtor _ _ (Obs (trig (en s)) (OExit x.2 x.1) :: u ++ th)); [done|done|done|done|..].
    + cbn [log trace trig]. change (trace (refuse ch g v) ++ [Obs (trig (refuse ch g v)) (OThrow y)]) with (trace (log (OThrow y) (refuse ch g v))).
      rewrite Hrt, Hrg. unfold th. rewrite Htr, Ht, <-!app_assoc. simpl. rewrite <-?app_assoc. done.
    + rewrite cons_middle, app_assoc. apply orderly_app.
      * apply orderly_snoc; [apply HT|]. split; [apply HT; by destruct x|].
        intros z Hz. apply HT in Hz. by eapply no_kids.
      * apply Forall_app. split; [by apply user_call_about|done].
    + cbn [app]. rewrite <-app_assoc. apply (exits_destroy_exit _ _ _ _ u th); [apply HT|done|].
      unfold th. right. destruct Hg as [->|(z & _ & ->)]; [left|right]; simpl; eauto.
    + constructor; [by right|]. apply Forall_app. split; [|eapply Forall_impl; [exact Hth|]; by left].
      eapply Forall_impl; [by apply user_call_about|]. by left.
  - eapply tracks_app; [exact HT|done|done|done|done|]. by repeat constructor.
  - eapply tracks_app; [exact HT|done|done|done|done|]. by repeat constructor.
  - eapply tracks_app; [exact HT|done|done|done|done|]. by repeat constructor.
  - eapply tracks_app; [exact HT|done|done|done|done|]. by repeat constructor.
Qed.

Lemma tracks_steps s s' : tracks s → rtc step s s' → tracks s'.
Proof. intros H Hs. induction Hs; [done|]. eauto using tracks_step. Qed.

Lemma tracks_fresh w : tracks (a_fresh w).
Proof.
  split; simpl.
  - split; simpl.
    + intros r y. simpl. by rewrite lookup_empty.
    + intros x q. unfold Abs.alive. simpl. by rewrite lookup_empty.
    + by intros x ?%elem_of_nil.
    + constructor.
  - intros x. unfold Abs.alive, lives. simpl. rewrite lookup_empty. split; [done|]. by intros [?%elem_of_nil _].
  - by intros k x ?%elem_of_nil.
  - apply orderly_nil.
  - apply exits_destroy_nil.
Qed.
End tracks.
