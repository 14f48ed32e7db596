(** Facts about the machines a client can see. *)
From stdpp Require Import relations.
From Verif Require Export Meaning.

Global Instance cmd_eq_dec : EqDecision cmd.
Proof. solve_decision. Defined.
Global Instance okind_eq_dec : EqDecision okind.
Proof. solve_decision. Defined.
Global Instance obs_eq_dec : EqDecision obs.
Proof. solve_decision. Defined.

Section seen.
Context {W : Type} (ch : chart) (U : user W).
Context (Hwf : wf_chart ch = true) (HU : user_ok ch U).
Notation S := (mst W heapst).
Notation seen := (seen ch U).

Lemma seen_tracks s : seen s → ∃ a, backed ch s a ∧ tr s = trace (en a) ∧ tracks ch a.
Proof.
  intros Hs. destruct (seen_backed ch U Hwf HU s Hs) as [a Ha]. exists a.
  split_and!; [done|by eapply backed_tr|apply (sb_tracks _ _ (bk_stable _ _ _ Ha))].
Qed.
Lemma seen_orderly s : seen s → orderly ch (tr s).
Proof. intros (a & _ & -> & HT)%seen_tracks. apply HT. Qed.
Lemma seen_exits s : seen s → exits_destroy (tr s).
Proof. intros (a & _ & -> & HT)%seen_tracks. apply HT. Qed.
Lemma seen_active s x : seen s → active s x ↔ lives (tr s) x.
Proof. intros (a & Ha & _)%seen_tracks. by eapply active_lives. Qed.

(** *** Constructions and destructions *)
Lemma elem_ob k t : k ∈ map ob t → ∃ t1 b t2, t = t1 ++ Obs b k :: t2.
Proof.
  intros (o & -> & Ho)%elem_of_list_fmap. apply elem_of_list_split in Ho as (t1 & t2 & ->). exists t1, (ob_trig o), t2.
  by destruct o.
Qed.
Lemma ob_elem t1 b k t2 : k ∈ map ob (t1 ++ Obs b k :: t2).
Proof. rewrite map_app, elem_of_app. right. by left. Qed.

Lemma orderly_dtor t t1 b p c t2 : orderly ch t → t = t1 ++ Obs b (ODtor p c) :: t2 →
  OCtor p c ∈ map ob t1 ∧ ODtor p c ∉ map ob t1 ∧ ODtor p c ∉ map ob t2.
Proof.
  intros Ho ->. destruct (Ho _ _ _ _ eq_refl) as [[H1 H2] _]. simpl in *. split_and!; try done.
  intros (t3 & b' & t4 & ->)%elem_ob.
  destruct (Ho (t1 ++ Obs b (ODtor p c) :: t3) b' (ODtor p c) t4) as [[_ H3] _]; [by rewrite <-app_assoc|].
  apply H3, ob_elem.
Qed.
Lemma orderly_ctor t t1 b p c t2 : orderly ch t → t = t1 ++ Obs b (OCtor p c) :: t2 →
  ∀ k x, k ∈ map ob t1 → about k = Some x → x.2 ≠ p.
Proof. intros Ho ->. by destruct (Ho _ _ _ _ eq_refl) as [H _]. Qed.
Lemma orderly_ctor_throw t p c c' : orderly ch t → OCtorThrow p c ∈ map ob t →
  OCtor p c' ∉ map ob t ∧ ODtor p c' ∉ map ob t.
Proof.
  intros Ho (t1 & b & t2 & ->)%elem_ob. destruct (Ho _ _ _ _ eq_refl) as [Hf _].
  assert (OCtor p c' ∉ map ob (t1 ++ Obs b (OCtorThrow p c) :: t2)) as Hc.
  { rewrite map_app, elem_of_app. simpl. rewrite elem_of_cons. intros [H|[H|H]]; [|done|].
    - by apply (Hf _ (c', p) H).
    - apply elem_ob in H as (t3 & b' & t4 & ->).
      destruct (Ho (t1 ++ Obs b (OCtorThrow p c) :: t3) b' (OCtor p c') t4) as [H _]; [by rewrite <-app_assoc|].
      eapply (H _ (c, p)); [apply ob_elem|done|done]. }
  split; [done|]. intros (t3 & b' & t4 & E)%elem_ob. destruct (Ho _ _ _ _ E) as [[H _] _]. apply Hc. rewrite E.
  rewrite map_app, elem_of_app. by left.
Qed.

Lemma no_objects a : good ch [] a → occ a !! (None, 0) = None → ∀ x, ¬ alive ch a x.
Proof. intros Hg H x Hx. destruct (good_empty ch Hwf a Hg H) as [H1 _]. unfold alive in Hx. by rewrite H1 in Hx. Qed.

Lemma terminated_iff s : seen s → terminated s = true ↔ ∀ x, ¬ active s x.
Proof.
  intros (a & Ha & _)%seen_tracks. pose proof (cm_good _ _ (sb_calm _ _ (bk_stable _ _ _ Ha))) as Hg.
  rewrite (terminated_abs ch _ _ Ha). unfold a_terminated. rewrite bool_decide_eq_true. split.
  - intros Hn x Hx. eapply no_objects; [done|done|by eapply active_alive].
  - intros Hn. destruct (occ (core a) !! (None, 0)) as [x|] eqn:E; [|done]. exfalso.
    apply (Hn x). eapply active_alive; [done|]. unfold alive.
    by rewrite (wa_reg _ _ _ (gd_wf _ _ _ Hg) _ _ E).
Qed.
Lemma terminated_all_destroyed s p c : seen s → terminated s = true →
  OCtor p c ∈ map ob (tr s) → ODtor p c ∈ map ob (tr s).
Proof.
  intros Hs Ht Hc. destruct (decide (ODtor p c ∈ map ob (tr s))) as [|Hn]; [done|]. exfalso.
  eapply (proj1 (terminated_iff s Hs) Ht (c, p)). by apply seen_active.
Qed.

(** *** Configurations *)
Lemma seen_inner s c p : seen s → active s (c, p) → is_leaf ch c = false →
  ∃ c' p', active s (c', p') ∧ parent ch c' = Some c.
Proof.
  intros (a & Ha & _)%seen_tracks Hx Hl. pose proof (sb_calm _ _ (bk_stable _ _ _ Ha)) as Hc.
  pose proof (cm_good _ _ Hc) as Hg. apply (active_alive ch _ _ _ Ha) in Hx.
  pose proof (gd_busy _ _ _ Hg _ Hx) as Hb. apply busy_true in Hb as [Hk|[Ho|[Hu|Hn]]].
  - destruct (kids ch (core a) c) as [|y l] eqn:E; [done|].
    assert (y ∈ kids ch (core a) c) as Hy by (rewrite E; by left).
    apply (elem_of_kids ch Hwf _ _ _ _ (gd_wf _ _ _ Hg)) in Hy as [Hy Hp].
    destruct y as [c' p']. exists c', p'. split; [|done]. by eapply active_alive.
  - apply (wa_ord _ _ _ (gd_wf _ _ _ Hg)) in Ho as [_ Ho]. simpl in Ho. congruence.
  - rewrite (cm_unst _ _ Hc) in Hu. done.
  - by apply elem_of_nil in Hn.
Qed.
Lemma seen_region s x y : seen s → active s x → active s y → region ch x.1 = region ch y.1 → x = y.
Proof.
  intros (a & Ha & _)%seen_tracks. rewrite !(active_alive ch _ _ _ Ha). unfold alive. intros Hx Hy E. congruence.
Qed.
Lemma seen_outer s c p q : seen s → active s (c, p) → parent ch c = Some q → ∃ p', active s (q, p').
Proof.
  intros (a & Ha & _)%seen_tracks. rewrite !(active_alive ch _ _ _ Ha). intros Hx Hp.
  destruct (wa_par _ _ _ (gd_wf _ _ _ (cm_good _ _ (sb_calm _ _ (bk_stable _ _ _ Ha)))) _ _ Hx Hp) as [p' H].
  exists p'. by eapply active_alive.
Qed.
Lemma seen_leaves s : seen s → NoDup (leaves s) ∧
  ∀ c, c ∈ leaves s ↔ is_leaf ch c = true ∧ ∃ p, active s (c, p).
Proof.
  intros (a & Ha & Et & HT)%seen_tracks. pose proof (cm_good _ _ (sb_calm _ _ (bk_stable _ _ _ Ha))) as Hg.
  destruct (innermost_ok ch a Hg HT) as [H1 H2]. rewrite (leaves_ord ch _ _ Ha). split; [done|].
  intros c. unfold abs_leaves. rewrite H2, <-Et. setoid_rewrite (active_lives ch _ _ _ Ha). done.
Qed.
Lemma terminated_leaves s : seen s → terminated s = true ↔ leaves s = [].
Proof.
  intros Hs. destruct (seen_leaves s Hs) as [_ Hl]. rewrite (terminated_iff s Hs). split.
  - intros H. destruct (leaves s) as [|c l] eqn:E; [done|]. exfalso.
    destruct (proj1 (Hl c)) as (_ & p & Hp); [by left|]. by apply (H (c, p)).
  - intros H x. destruct (seen_tracks s Hs) as (a & Ha & _). pose proof (cm_good _ _ (sb_calm _ _ (bk_stable _ _ _ Ha))) as Hg.
    assert (∀ n c p, ncls ch - c ≤ n → ¬ active s (c, p)) as Hn; [|destruct x; by eapply Hn].
    induction n as [|n IH]; intros c p Hc Hx.
    + apply (active_alive ch _ _ _ Ha) in Hx. pose proof (gd_decl _ _ _ Hg _ Hx). simpl in *. lia.
    + destruct (is_leaf ch c) eqn:El.
      * assert (c ∈ leaves s) as Hin; [|rewrite H in Hin; by apply elem_of_nil in Hin]. apply Hl. eauto.
      * destruct (seen_inner s c p Hs Hx El) as (c' & p' & Hx' & Hp). eapply IH; [|exact Hx'].
        pose proof (parent_lt ch Hwf _ _ Hp). lia.
Qed.

(** *** Exits *)
Lemma exit_once t t1 b p c t2 : orderly ch t → exits_destroy t → t = t1 ++ Obs b (OExit p c) :: t2 →
  OExit p c ∉ map ob t1 ∧ OExit p c ∉ map ob t2.
Proof.
  intros Ho He Et.
  assert (∀ t1 b t2, t = t1 ++ Obs b (OExit p c) :: t2 → OExit p c ∉ map ob t2) as H2.
  { clear t1 b t2 Et. intros t1 b t2 Et. destruct (He _ _ _ _ _ Et) as (u & th & b' & t3 & E & Hu & Hth).
    intros Hin. rewrite E, !map_app, !elem_of_app in Hin. simpl in Hin. rewrite elem_of_cons in Hin.
    destruct Hin as [Hin|[Hin|[Hin|Hin]]]; [| |done|].
    - apply elem_of_list_fmap in Hin as (o & Eo & Hin). rewrite Forall_forall in Hu. specialize (Hu _ Hin).
      by rewrite <-Eo in Hu.
    - destruct Hth as [->|[(b'' & y & ->)|(b'' & z & y & ->)]]; simpl in Hin; rewrite ?elem_of_cons, ?elem_of_nil in Hin; naive_solver.
    - apply elem_ob in Hin as (t4 & b4 & t5 & ->). rewrite E in Et.
      destruct (Ho (t1 ++ Obs b (OExit p c) :: u ++ th ++ Obs b' (ODtor p c) :: t4) b4 (OExit p c) t5) as [[_ Hd] _].
      { rewrite Et. by rewrite <-!app_assoc; simpl; rewrite <-!app_assoc; simpl. }
      apply Hd. rewrite !map_app, !elem_of_app. simpl. right. right. rewrite !map_app, !elem_of_app. right. right. by left. }
  split; [|by eapply H2]. intros (t3 & b3 & t4 & ->)%elem_ob.
  eapply (H2 t3 b3 (t4 ++ Obs b (OExit p c) :: t2)); [by rewrite Et, <-app_assoc|]. apply ob_elem.
Qed.

(** *** Destruction of the machine *)
Lemma exits_elem k fe L : k ∈ exits fe L → ∃ y, y ∈ L ∧ (k = ODtor y.2 y.1 ∨ fe = true ∧ k = OExit y.2 y.1).
Proof.
  unfold exits. intros (y & H & Hy)%elem_of_list_In%in_flat_map.
  exists y. split; [by apply elem_of_list_In|]. apply elem_of_list_In in Hy.
  destruct fe; simpl in Hy; rewrite ?elem_of_cons, ?elem_of_nil in Hy; naive_solver.
Qed.
Lemma destroyed s r s' : reach ch U s → destroy ch U s = (r, s') →
  r = Ret tt ∧ (∀ x, ¬ active s' x) ∧
  ∃ ks L, tr s' = tr s ++ under None (ks ++ [OReset]) ∧ Forall (λ k, quiet k = true) ks ∧
    lifes ks = map (λ y, ODtor y.2 y.1) L ∧ leaving ch L ∧ ∀ y, y ∈ L ↔ active s y.
Proof.
  intros Hs E. destruct (reach_backed ch U Hwf HU s Hs) as [a Ha].
  destruct (destroy_backed ch U Hwf HU _ _ _ _ Ha E) as (-> & a' & ks & Ha' & [H1 _] & Et & (ks' & -> & Hq & HP)).
  split; [done|]. split.
  - intros x Hx. apply (active_alive ch _ _ _ Ha') in Hx. unfold alive in Hx. by rewrite H1 in Hx.
  - destruct HP as (L & HL & Hl & EL). exists ks', L. split_and!; try done. intros y. rewrite HL. symmetry. by eapply active_lives.
Qed.
End seen.
