(** Reactions. *)
From stdpp Require Import relations.
From Verif Require Export Story.

Section up_spec.
Context (ch : chart) (Hwf : wf_chart ch = true).
Notation alive := (alive ch).
Notation kids := (kids ch).

Lemma inside_kid H a q w : wfa ch H a → alive a w → encloses ch (Some q) w.1 →
  ∃ k, k ∈ kids a q ∧ within ch k.1 w.1.
Proof.
  intros Hw. remember w.1 as n eqn:Hn. revert w Hn. induction (lt_wf n) as [n _ IH]. intros w -> Ha He.
  inversion He as [c Hc|o c q' Hp He']; subst.
  - exists w. split; [by apply (elem_of_kids ch Hwf _ _ _ _ Hw)|by left].
  - destruct (wa_par _ _ _ Hw _ _ Ha Hp) as [pq Hq].
    destruct (IH q' (parent_lt _ Hwf _ _ Hp) (q', pq) eq_refl Hq He') as (k & Hk & Hin).
    exists k. split; [done|]. right. eapply within_kid in Hp as Hp'; [|by left].
    destruct Hin as [->|Hin]; [done|]. by eapply (encloses_trans ch).
Qed.

Lemma within_trans x y z : within ch x y → within ch y z → within ch x z.
Proof.
  intros [->|H1] [->|H2]; [by left|by right|by right|]. right. by eapply (encloses_trans ch).
Qed.
Lemma encloses_within_l x y z : encloses ch (Some x) y → within ch y z → encloses ch (Some x) z.
Proof. intros H1 [->|H2]; [done|]. by eapply (encloses_trans ch). Qed.

Lemma encloses_up q x z : parent ch x = Some q → encloses ch (Some z) x → within ch z q.
Proof.
  intros Hp He. inversion He as [c Hc|o c q' Hp' He']; subst.
  - left. congruence.
  - right. congruence.
Qed.

Lemma up_spec H a x y : wfa ch H a → alive a x →
  (y ∈ up ch [] a x ↔ alive a y ∧ encloses ch (Some y.1) x.1 ∧
    ∀ w, alive a w → encloses ch (Some y.1) w.1 → within ch x.1 w.1 ∨ encloses ch (Some w.1) x.1).
Proof.
  intros Hw. revert x. apply (up_ind ch Hwf _ [] H a Hw). intros x Hx IH.
  rewrite (up_unfold ch Hwf _ _ _ _ Hw Hx). destruct (ctx_of ch a x.1) as [q|] eqn:Hc.
  2:{ split; [by intros ?%elem_of_nil|]. intros (Hy & He & _). exfalso. destruct x as [c p].
      pose proof (ctx_of_None _ _ _ _ _ Hw Hx Hc) as Hp. inversion He; simpl in *; congruence. }
  destruct x as [c p]. destruct (ctx_of_alive _ _ _ _ _ _ Hw Hx Hc) as [Hq Hp]. cbn [fst] in *.
  assert ((c, p) ∈ kids a q.1) as Hxk by by apply (elem_of_kids ch Hwf _ _ _ _ Hw).
  pose proof (parent_lt _ Hwf _ _ Hp) as Hlt.
  assert (∀ w, alive a w → encloses ch (Some q.1) w.1 → kids a q.1 = [(c, p)] → within ch c w.1) as Hone.
  { intros w Hwa He Hk. destruct (inside_kid _ _ _ _ Hw Hwa He) as (k & Hkk & Hin).
    rewrite Hk in Hkk. apply elem_of_list_singleton in Hkk. by subst k. }
  assert ((∀ w, alive a w → encloses ch (Some q.1) w.1 → within ch c w.1 ∨ encloses ch (Some w.1) c) →
          kids a q.1 = [(c, p)]) as Honly.
  { intros Hall. assert (∀ k, k ∈ kids a q.1 → k = (c, p)) as Hk.
    { intros k Hk. apply (elem_of_kids ch Hwf _ _ _ _ Hw) in Hk as [Hka Hkp].
      apply (alive_unique ch a); [done..|]. cbn [fst]. pose proof (parent_lt _ Hwf _ _ Hkp).
      destruct (Hall k Hka) as [[Heq|Hin]|Hin].
      - rewrite <-Hkp. constructor.
      - done.
      - apply (encloses_up _ _ _ Hkp) in Hin as [Hin|Hin]; [lia|]. apply (encloses_lt ch Hwf) in Hin. lia.
      - apply (encloses_up _ _ _ Hp) in Hin as [Hin|Hin]; [lia|]. apply (encloses_lt ch Hwf) in Hin. lia. }
    pose proof (kids_NoDup ch _ _ q.1 Hw) as Hnd. destruct (kids a q.1) as [|k1 [|k2 l]].
    - by apply elem_of_nil in Hxk.
    - f_equal. apply Hk. left.
    - exfalso. rewrite (Hk k1), (Hk k2) in Hnd by set_solver. apply NoDup_cons in Hnd as [Hnd _].
      apply Hnd. left. }
  destruct (decide (kids a q.1 = [(c, p)] ∧ q ∉ [])) as [[Hk _]|Hk].
  - rewrite elem_of_cons, (IH q eq_refl Hq Hk) by apply not_elem_of_nil. split.
    + intros [->|(Hy & He & Hall)].
      * split_and!; [done|rewrite <-Hp; constructor|]. intros w Hwa He. left. by apply Hone.
      * split_and!; [done|by eapply encloses_step|]. intros w Hwa Hew.
        destruct (Hall w Hwa Hew) as [[Heq|Hin]|Hin].
        -- right. rewrite Heq, <-Hp. constructor.
        -- left. by apply Hone.
        -- right. by eapply encloses_step.
    + intros (Hy & He & Hall). destruct (encloses_up _ _ _ Hp He) as [Heq|He'].
      * left. by apply (alive_unique ch a).
      * right. split_and!; [done|done|]. intros w Hwa Hew. destruct (Hall w Hwa Hew) as [Hin|Hin].
        -- left. right. eapply encloses_within_l; [|exact Hin]. rewrite <-Hp. constructor.
        -- apply (encloses_up _ _ _ Hp) in Hin as [Heq|Hin]; [left; by left|by right].
  - split; [by intros ?%elem_of_nil|]. intros (Hy & He & Hall). exfalso. apply Hk.
    split; [|apply not_elem_of_nil]. apply Honly. intros w Hwa Hew. apply Hall; [done|].
    destruct (encloses_up _ _ _ Hp He) as [Heq|He']; [by rewrite <-Heq|]. by eapply (encloses_trans ch).
Qed.
End up_spec.

(** ** From the environment to the grammar *)
Lemma under_app b ks ks' : under b (ks ++ ks') = under b ks ++ under b ks'.
Proof. apply map_app. Qed.
Lemma ob_under b ks : map ob (under b ks) = ks.
Proof. unfold under. rewrite map_map. apply map_id. Qed.
Lemma lifes_app ks ks' : lifes (ks ++ ks') = lifes ks ++ lifes ks'.
Proof. apply filter_app. Qed.
Lemma life_lifes t : life t = lifes (map ob t).
Proof. done. Qed.

Section kinds.
Context {W : Type} (ch : chart).
Notation evo := (evo (W:=W) ch).

Lemma uniform_under b (T : list obs) : Forall (λ o, ob_trig o = b) T → T = under b (map ob T).
Proof.
  induction T as [|[b' k] T IH]; intros HT; [done|]. apply Forall_cons in HT as [Hb HT]. simpl in Hb. subst.
  simpl. f_equal. by apply IH.
Qed.

Lemma ext_kinds b (T : list obs) L : life T = L → Forall (λ o, ob_trig o = b ∧ quiet (ob o) = true) T →
  ∃ ks, T = under b ks ∧ lifes ks = L ∧ Forall (λ k, quiet k = true) ks.
Proof.
  intros HL HT. exists (map ob T). split_and!.
  - apply uniform_under. eapply Forall_impl; [exact HT|]. by intros ? [].
  - done.
  - apply Forall_map. eapply Forall_impl; [exact HT|]. by intros ? [].
Qed.
Lemma evo_kinds L v v' : evo L v v' → ∃ ks, trace v' = trace v ++ under (trig v) ks ∧ lifes ks = L ∧
  Forall (λ k, quiet k = true) ks.
Proof.
  intros [(T & Ht & HL & HT) _ _ _]. destruct (ext_kinds _ _ _ HL HT) as (ks & -> & H1 & H2). eauto.
Qed.
Lemma evo_goes (P : list okind → Prop) L v v' : evo L v v' → P L → ∃ ks, trace v' = trace v ++ under (trig v) ks ∧ goes P ks.
Proof. intros He HP. destruct (evo_kinds _ _ _ He) as (ks & H1 & H2 & H3). exists ks. by rewrite <-H2 in HP. Qed.
Lemma evo_calls v v' : evo [] v v' → ∃ ks, trace v' = trace v ++ under (trig v) ks ∧ calls ks.
Proof.
  intros He. destruct (evo_kinds _ _ _ He) as (ks & H1 & H2 & H3). exists ks. split; [done|].
  unfold calls. rewrite Forall_forall in *. intros k Hk. split; [by apply H3|].
  destruct (is_life k) eqn:E; [|done]. exfalso.
  assert (k ∈ lifes ks) as Hin by (apply elem_of_list_filter; done). rewrite H2 in Hin. by apply elem_of_nil in Hin.
Qed.
Lemma evx_stops (P : list okind → Prop) y g K K' L' (v v' : env W) : evx ch y g K L' v v' → fits ch g K K' → P (K ++ K') →
  ∃ ks, trace v' = trace v ++ under (trig v) ks ∧ stops ch P y ks.
Proof.
  intros (v1 & H1 & H2 & H3) Hf HP. pose proof (evo_trig _ _ _ _ H1) as Ht.
  destruct (evo_kinds _ _ _ H1) as (k1 & E1 & E2 & E3). destruct (evo_kinds _ _ _ H2) as (k2 & F1 & F2 & F3).
  simpl in F1. exists (k1 ++ refusal g ++ OThrow y :: k2). split.
  - rewrite F1, !under_app. change (under _ (OThrow y :: k2)) with ([Obs (trig v) (OThrow y)] ++ under (trig v) k2).
    destruct (refuse_fields ch g v1) as (Eg & _ & _ & _ & _ & _ & Et). rewrite Eg, Et, E1, Ht, <-!app_assoc.
    by destruct g.
  - exists k1, g, k2, K'. rewrite E2, F2. done.
Qed.
End kinds.

Section wp_react.
Context {W : Type} (ch : chart) (U : user W).
Context (Hwf : wf_chart ch = true) (HU : user_ok ch U).
Notation S := (mst W acore).
Notation alive := (alive ch).
Notation good := (good ch).
Notation evo := (evo (W:=W) ch).

(** Nothing changed but the set of states with deferred events. *)
Record same_config (a a' : acore) : Prop := {
  sc_occ : occ a' = occ a;
  sc_ord : ord a' = ord a;
  sc_unst : aunst a' = aunst a;
  sc_nxt : anxt a' = anxt a }.
Lemma same_config_refl a : same_config a a.
Proof. done. Qed.

(** The machine was left in the middle of something. *)
Definition halted (a : acore) : Prop := aunst a ≠ None ∨ occ a !! (None, 0) = None.

(** The same; if it was stable in [a], the outermost unstable state is the outermost one with a region that
    has become vacant since. *)
Definition halted_from (a a' : acore) : Prop := halted a' ∧ (aunst a = None → ch_relax ch = None → marked ch a a').
Lemma halted_from_same a a1 a' : same_config a a1 → halted_from a1 a' → halted_from a a'.
Proof.
  intros [S1 S2 S3 S4] [H1 H2]. split; [done|]. intros Hu Hrel. rewrite <-S3 in Hu.
  unfold marked, newvac, vacant, Abs.alive in *. rewrite <-S1. by apply H2.
Qed.

(** What a piece of event processing does to the machine, besides what it records. *)
Record moves_on (s s' : S) (ks : list okind) : Prop := {
  mo_good : good [] (core s');
  mo_hist : hist_ok ch (en s');
  mo_trig : trig (en s') = trig (en s);
  mo_full : full (en s') = full (en s);
  mo_trace : trace (en s') = trace (en s) ++ under (trig (en s)) ks }.

(** Nothing moved, or the machine is stable ([Q]: or left in the middle). *)
Definition config (Q : acore → Prop) (a a' : acore) (ks : list okind) : Prop :=
  (same_config a a' ∧ ¬ moved ks) ∨ (Q a' ∧ moved ks).

Lemma evo_moves_on s s' L (P : list okind → Prop) :
  good [] (core s') → hist_ok ch (en s) → evo L (en s) (en s') → P L →
  ∃ ks, moves_on s s' ks ∧ goes P ks.
Proof.
  intros Hg Hh He HP. destruct (evo_goes _ _ _ _ _ He HP) as (ks & Ht & Hks). exists ks. split; [|done].
  split; [done| |apply (evo_trig _ _ _ _ He)|apply (evo_full _ _ _ _ He)|done]. by apply (evo_hist _ _ _ _ He).
Qed.

Lemma moves_on_cons s v k s' ks : v = log k (en s) → moves_on (MSt (core s) v) s' ks → moves_on s s' (k :: ks).
Proof.
  intros -> [M1 M2 M3 M4 M5]. split; try done. simpl in *. rewrite M5. by rewrite <-app_assoc.
Qed.
Lemma moves_on_app s s1 s2 ks ks' : moves_on s s1 ks → moves_on s1 s2 ks' → moves_on s s2 (ks ++ ks').
Proof.
  intros [M1 M2 M3 M4 M5] [N1 N2 N3 N4 N5]. split; try done; [congruence..|].
  rewrite N5, M5, M3, under_app, app_assoc. done.
Qed.
Lemma moves_on_log s s1 k ks : moves_on s s1 ks → moves_on s (MSt (core s1) (log k (en s1))) (ks ++ [k]).
Proof.
  intros [M1 M2 M3 M4 M5]. split; try done. simpl. rewrite M5, M3, under_app, <-app_assoc. done.
Qed.

Lemma failed_moves_on s s' y (P : list okind → Prop) B :
  failed ch [] P B y s s' → hist_ok ch (en s) →
  ∃ ks, moves_on s s' ks ∧ stops ch P y ks ∧ halted (core s') ∧ ∀ a0, B a0 → marked ch a0 (core s').
Proof.
  intros [F1 F2 (g & K & K' & L' & HP & Hf & He) F4] Hh. destruct (evx_stops _ _ _ _ _ _ _ _ _ He Hf HP) as (ks & Ht & Hks).
  exists ks. split; [|done]. split; [done| | | |done].
  - by apply (evx_hist ch Hwf _ _ _ _ _ _ He).
  - apply (evx_trig _ _ _ _ _ _ _ He).
  - apply (evx_full _ _ _ _ _ _ _ He).
Qed.

(** The live objects are those the trace [tr] tells; [tr] need not be the whole trace. *)
Record knows (tr : list obs) (a : acore) : Prop := {
  kn_lives y : alive a y ↔ lives tr y;
  kn_fresh k (y : obj) : k ∈ map ob tr → about k = Some y → y.2 < anxt a }.
Lemma tracks_knows (s : S) : tracks ch s → knows (trace (en s)) (core s).
Proof. intros HT. split; [apply (tk_alive _ _ HT)|apply (tk_fresh _ _ HT)]. Qed.
Lemma knows_same tr a a' : knows tr a → occ a' = occ a → anxt a ≤ anxt a' → knows tr a'.
Proof.
  intros [K1 K2] Ho Hn. split.
  - intros y. rewrite <-K1. unfold Abs.alive. by rewrite Ho.
  - intros k y H1 H2. eapply Nat.lt_le_trans; [by eapply K2|done].
Qed.

(** ** Termination *)
Definition unst_in (a : acore) (x : aid) : Prop :=
  aunst a = None ∨ ∃ w, aunst a = Some w ∧ within ch x.1 w.1.

Lemma terminate_plan_ok tr (s : S) fe x : knows tr (core s) → good [] (core s) → alive (core s) x →
  terminate_plan ch (tr) fe x (exits fe (gone ch [] (core s) x)).
Proof.
  intros HT Hg Hx. pose proof (gd_wf _ _ _ Hg) as Hw. exists (gone ch [] (core s) x). split_and!; [|by eapply gone_sorted|done].
  intros y. unfold gone. rewrite elem_of_app, (elem_of_sub ch Hwf _ _ _ _ Hw Hx), (up_spec ch Hwf _ _ _ _ Hw Hx).
  rewrite (kn_lives _ _ HT y). split.
  - intros [[H1 H2]|(H1 & H2 & H3)]; [tauto|]. split; [done|]. right. split; [done|].
    intros w Hl. apply H3. by apply (kn_lives _ _ HT w).
  - intros [H1 [H2|[H2 H3]]]; [tauto|]. right. split_and!; [done..|].
    intros w Hl. apply H3. by apply (kn_lives _ _ HT w).
Qed.

Lemma wp_terminate_reaction tr x (s : S) e :
  good [] (core s) → hist_ok ch (en s) → knows tr (core s) → alive (core s) x → unst_in (core s) x →
  wp (a_decide ch U x e DTerminate)
    (λ r s', ∃ ks, moves_on s s' ks ∧ effect ch (tr) (full (en s)) e x DTerminate ks (Done r) ∧
       config (λ a, aunst a = None) (core s) (core s') ks)
    (λ y s', ∃ ks, moves_on s s' ks ∧ effect ch (tr) (full (en s)) e x DTerminate ks (Threw y) ∧
       config (halted_from (core s)) (core s) (core s') ks) s.
Proof.
  intros Hg Hh HT Hx Hu. cbn [a_decide]. apply wp_bind, wp_emit, wp_bind.
  set (s1 := MSt (core s) (log (OTerminate x.2 x.1) (en s))).
  assert (∀ ks, moved (OTerminate x.2 x.1 :: ks)) as Hmv.
  { intros ks. eexists. split; [left|done]. }
  pose proof (terminate_plan_ok tr s (full (en s)) x HT Hg Hx) as Hplan.
  eapply wp_mono; [by apply (wp_terminate_as_reaction ch U Hwf HU)|..].
  - intros [] s2 [C1 C2 C3 C4]. apply wp_ret.
    destruct (evo_moves_on s1 s2 _ (terminate_plan ch (tr) (full (en s)) x) C2 Hh C3 Hplan) as (ks & Hm & Hks).
    exists (OTerminate x.2 x.1 :: ks). split_and!.
    + by eapply moves_on_cons.
    + by constructor.
    + right. split; [|done]. by rewrite C1.
  - intros y s2 (Hfe & Hi & Hf). eapply failed_moves_on in Hf as (ks & Hm & Hks & Hhalt & Hmk); [|done].
    exists (OTerminate x.2 x.1 :: ks). split_and!.
    + by eapply moves_on_cons.
    + constructor. destruct Hks as (k1 & g & k2 & rest & E1 & E2 & E3 & E4 & E5 & E6).
      exists k1, g, k2, rest. split_and!; try done. rewrite <-E4. simpl in Hfe. rewrite Hfe in Hplan |- *. done.
    + right. split; [|done]. split; [done|]. intros Hu0 Hrel0. by apply Hmk.
Qed.

(** ** Transitions *)
Lemma wp_outward i x t (s : S) :
  wfa ch [] (core s) → alive (core s) x → termination_state ch x.1 i = Some t →
  wp (a_outward ch i x) (λ z s', s' = s ∧ alive (core s) z ∧ z.1 = t) (λ _ _, False) s.
Proof.
  intros Hw. revert x. induction i as [|i IH]; intros x Hx Ht.
  - apply wp_ret. unfold termination_state in Ht. simpl in Ht. by injection Ht as <-.
  - cbn [a_outward]. apply wp_bind, wp_gets, wp_bind, wp_assert; [done|].
    unfold termination_state in Ht. cbn [lookup] in Ht. rewrite (outers_unfold ch Hwf) in Ht.
    destruct (parent ch x.1) as [q|] eqn:Hp; [|done].
    destruct (wa_par _ _ _ Hw _ _ Hx Hp) as [pq Hq].
    assert (ctx_of ch (core s) x.1 = Some (q, pq)) as ->.
    { unfold ctx_of. rewrite Hp. done. }
    by apply IH.
Qed.

Lemma failed_extend H (P P' : list okind → Prop) R B y (s s' : S) :
  (∀ K, P K → P' (K ++ R)) → failed ch H P B y s s' → failed ch H P' B y s s'.
Proof.
  intros HP [F1 F2 (g & K & K' & L' & F3 & F0 & F4) F5]. split; try done. exists g, K, (K' ++ R), L'.
  rewrite app_assoc. split_and!; [auto|by apply fits_post|done].
Qed.

Lemma wp_drop_busy H x (s : S) :
  good (x :: H) (core s) → alive (core s) x → busy ch H (core s) x = true →
  wp (drop_ ch U H x) (λ _ s', s' = s) (λ _ _, False) s.
Proof.
  intros Hg Hx Hb. unfold drop_. rewrite depth_fuel_S. cbn [a_drop].
  apply wp_bind, wp_gets, wp_bind, wp_assert; [done|]. rewrite Hb. by apply wp_ret.
Qed.

Lemma wp_user_action x act e (s : S) :
  wp (a_user_action ch U x act e)
    (λ _ s', core s' = core s ∧ evo (act_of (snd <$> x) act e) (en s) (en s') ∧ ico (en s') = ico (en s))
    (λ y s', core s' = core s ∧ evx ch y None (act_of (snd <$> x) act e) [] (en s) (en s')) s.
Proof.
  destruct act as [n|]; cbn [a_user_action act_of]; [|apply wp_ret; split_and!; [done|apply evo_refl|done]].
  apply wp_bind, wp_emit. eapply wp_mono; [apply (wp_ucall_x ch abs_leaves); apply (ok_action _ _ HU)|..].
  - intros [] s1 [Hc [Hu1 Hu2 Hu3]]. split_and!; [done| |done]. eapply evo_trans_r; [by apply evo_log1|done].
  - intros y s1 [Hc (v & [Hu1 Hu2 Hu3] & Hv)]. split; [done|]. rewrite Hv. exists v. split_and!.
    + eapply evo_trans_r; [by apply evo_log1|done].
    + apply evo_refl.
    + constructor.
Qed.

Lemma up_held a z q : wfa ch [] a → alive a z → ctx_of ch a z.1 = Some q → up ch [q] a z = [].
Proof.
  intros Hw Hz Hc. rewrite (up_unfold ch Hwf _ _ _ _ Hw Hz), Hc. rewrite decide_False; [done|].
  intros [_ Hn]. apply Hn. left.
Qed.

(** ** Leaving states and calling the action *)
Lemma outward_order c i j t o : (c :: outers ch c) !! i = Some t → (c :: outers ch c) !! j = Some o →
  j ≤ i ↔ within ch t o.
Proof.
  assert (∀ c j q, (c :: outers ch c) !! j = Some q → within ch q c) as Hin.
  { clear -Hwf. intros c j q. revert c. induction j as [|j IH]; intros c Hj; simpl in Hj; [injection Hj as ->; by left|].
    rewrite (outers_unfold ch Hwf) in Hj. destruct (parent ch c) as [p|] eqn:Hp; [|done].
    right. destruct (IH p Hj) as [<-|He]; [rewrite <-Hp; constructor|by eapply encloses_step]. }
  revert c i. induction j as [|j IH]; intros c i Hi Hj.
  - injection Hj as <-. split; [|lia]. intros _. by eapply Hin.
  - pose proof Hj as Hj0. simpl in Hj. rewrite (outers_unfold ch Hwf) in Hj. destruct (parent ch c) as [p|] eqn:Hp; [|done].
    destruct i as [|i].
    + injection Hi as <-. split; [lia|]. intros Hco. exfalso. apply (parent_lt _ Hwf) in Hp as Hlt.
      assert (o ≤ p). { destruct (Hin p j o Hj) as [<-|He]; [done|]. apply (encloses_lt ch Hwf) in He. lia. }
      destruct Hco as [->|He]; [lia|]. apply (encloses_lt ch Hwf) in He. lia.
    + simpl in Hi. rewrite (outers_unfold ch Hwf), Hp in Hi. rewrite <-(IH p i Hi Hj). lia.
Qed.

Lemma early_spec c i act t : termination_state ch c i = Some t →
  match early ch c i act with
  | Some j => ∃ o, action_owner ch act = Some o ∧ termination_state ch c j = Some o ∧ encloses ch (Some o) c ∧
      within ch t o ∧ ch_relax ch ≠ None
  | None => ∀ o, action_owner ch act = Some o → encloses ch (Some o) c → ¬ within ch t o
  end.
Proof.
  unfold termination_state, early, action_owner. intros Ht.
  destruct (ch_relax ch) as [f|]; [|done]. destruct act as [n|]; [|done].
  destruct (f n) as [o|]; [|done].
  assert (∀ q, encloses ch (Some q) c ↔ q ∈ outers ch c) as Hout.
  { intros q. rewrite (encloses_list ch Hwf). unfold context_list.
    rewrite elem_of_app, elem_of_list_singleton, elem_of_list_fmap. split.
    - intros [(q' & [= ->] & H)|H]; done.
    - intros H. left. eauto. }
  destruct (list_find (eq o) (outers ch c)) as [[j o']|] eqn:Hf.
  - apply list_find_Some in Hf as (Hj & <- & _). pose proof (outward_order c i (Datatypes.S j) t o Ht Hj) as Hord.
    case_bool_decide as Hle.
    + exists o. split_and!; [done|done| |by apply Hord|done]. apply Hout. by eapply elem_of_list_lookup_2.
    + intros o' [= <-] _ Hin. by apply Hle, Hord.
  - intros o' [= <-] He _. apply Hout in He. apply list_find_None in Hf. rewrite Forall_forall in Hf. by apply (Hf o).
Qed.

(** The states left by a transition of [x], before and after the action. *)
Definition parts (a : acore) (x z : aid) (act : option nat) (cx : option aid) (L1 L2 : list aid) : Prop :=
  receiver ch x z act (fst <$> cx) ∧ (∀ q, cx = Some q → alive a q) ∧
  (∀ y, y ∈ L1 ↔ alive a y ∧ within ch z.1 y.1 ∧ ¬ late ch x z act y) ∧ leaving ch L1 ∧
  (∀ y, y ∈ L2 ↔ alive a y ∧ within ch z.1 y.1 ∧ late ch x z act y) ∧ leaving ch L2.

Lemma filter_sorted {B} (R : B → B → Prop) (P : B → Prop) `{∀ x, Decision (P x)} l :
  StronglySorted R l → StronglySorted R (filter P l).
Proof.
  induction 1 as [|y l Hs IH Hall]; [constructor|]. rewrite filter_cons. case_decide; [|done]. constructor; [done|].
  rewrite Forall_forall in *. intros z [_ Hz]%elem_of_list_filter. by apply Hall.
Qed.

Record departed (fe : bool) (H : list aid) (x z : aid) (act : option nat) (e : event) (s s' : S) : Prop := {
  dp_occ : occ (core s') = occ (leave ch (sub ch (core s) z) (core s));
  dp_nxt : anxt (core s') = anxt (core s);
  dp_unst : aunst (core s') = ctx_of ch (core s) z.1;
  dp_good : good H (core s');
  dp_evo : ∃ cx L1 L2, parts (core s) x z act cx L1 L2 ∧
    evo (exits fe L1 ++ act_of (snd <$> cx) act e ++ exits fe L2) (en s) (en s');
  dp_ico : ico (en s') = true }.

Lemma halted_ctx H a a' z : wfa ch [] a → alive a z → aunst a' = ctx_of ch a z.1 →
  occ a' = occ (leave ch (sub ch a z) a) → good H a' → halted a'.
Proof.
  intros Hw Hz Hu Ho Hg. unfold halted. rewrite Hu. destruct (ctx_of ch a z.1) as [q|] eqn:Hc; [by left|]. right.
  rewrite Ho, occ_leave, decide_True; [done|]. apply elem_of_list_In, in_map_iff. exists z. split.
  - by eapply no_top.
  - apply elem_of_list_In. apply (elem_of_sub ch Hwf _ _ _ _ Hw Hz). split; [done|by left].
Qed.

Lemma wp_depart H x z i act e (s : S) :
  good [] (core s) → alive (core s) x → alive (core s) z → within ch z.1 x.1 →
  termination_state ch x.1 i = Some z.1 → unst_in (core s) x → H = opt_list (ctx_of ch (core s) z.1) →
  let fe := full (en s) in
  wp (a_depart ch U H (ctx_of ch (core s) z.1) z x i act e)
    (λ _ s', departed fe H x z act e s s')
    (λ y s', failed ch H (λ K, ∃ cx L1 L2, parts (core s) x z act cx L1 L2 ∧
       K = exits fe L1 ++ act_of (snd <$> cx) act e ++ exits fe L2) (λ a0, begins (core s) a0 ∧ ch_relax ch = None) y s s') s.
Proof.
  intros Hg0 Hx Hz Hzx Hts Hu HH0 fe. set (a := core s) in *.
  pose proof (gd_wf _ _ _ Hg0) as Hw0.
  assert (ctx_of ch a z.1 = None ∨ ∃ q, ctx_of ch a z.1 = Some q ∧ alive a q ∧ parent ch z.1 = Some q.1) as Hctx.
  { destruct (ctx_of ch a z.1) as [q|] eqn:Hc; [right|by left]. exists q. split; [done|]. destruct z as [zc zp].
    by destruct (ctx_of_alive _ _ _ _ _ _ Hw0 Hz Hc). }
  assert (good H a) as Hg.
  { subst H. destruct Hctx as [->|(q & -> & Hq & _)]; [done|]. by apply good_weaken. }
  pose proof (gd_wf _ _ _ Hg) as Hw.
  assert (∀ y : aid, y ∈ H → y.1 < z.1) as HHlt.
  { intros y Hy. subst H. destruct Hctx as [Hc|(q & Hc & Hq & Hp)]; rewrite Hc in Hy.
    - by apply elem_of_nil in Hy.
    - apply elem_of_list_singleton in Hy as ->. by apply (parent_lt _ Hwf). }
  assert (∀ a' H', wfa ch H' a' → alive a' z → ctx_of ch a' z.1 = ctx_of ch a z.1 → up ch H a' z = []) as Hup.
  { intros a' H' Hw' Hz' Hc'. rewrite (up_unfold ch Hwf _ _ _ _ Hw' Hz'), Hc'. subst H.
    destruct (ctx_of ch a z.1) as [q|]; [|done]. rewrite decide_False; [done|]. intros [_ Hn]. apply Hn. left. }
  unfold a_depart. pose proof (early_spec x.1 i act z.1 Hts) as Hes.
  destruct (early ch x.1 i act) as [j|].
  - (* the action belongs to an outer state that is left *)
    destruct Hes as (o & Hown & Htw & Hox & Hzo & Hrel).
    apply wp_bind. eapply wp_mono; [by apply (wp_outward j x o s)| |done]. intros w s0 (-> & Hwa & Hwo). fold a in Hwa.
    apply wp_bind, wp_gets, wp_bind, wp_assert; [done|]. subst o.
    assert (∀ y : aid, y ∈ H → y.1 < w.1) as HHw.
    { intros y Hy. apply HHlt in Hy. destruct Hzo as [Hzo|Hzo]; [lia|]. apply (encloses_lt ch Hwf) in Hzo. lia. }
    pose proof (good_weaken ch _ _ _ Hg Hwa) as Hgw.
    assert (kids ch a w.1 ≠ []) as Hk.
    { destruct (inside_kid ch Hwf _ _ _ _ Hw Hx Hox) as (k & Hk & _). intros Hn. rewrite Hn in Hk. by apply elem_of_nil in Hk. }
    assert (aunst a = None ∨ ∃ v, aunst a = Some v ∧ encloses ch (Some w.1) v.1) as Huw.
    { destruct Hu as [Hu|(v & Hu & Hin)]; [by left|]. right. exists v. split; [done|]. by eapply encloses_within_l. }
    assert (0 < nreg ch w.1) as Hpos.
    { destruct (nreg ch w.1) eqn:En; [|lia]. exfalso. apply Hk. apply kids_nil. intros k. lia. }
    assert (∀ y, late ch x z act y ↔ ¬ encloses ch (Some w.1) y.1) as Hlate.
    { intros y. split.
      - intros (o & Ho & _ & _ & Hn). rewrite Hown in Ho. injection Ho as <-. done.
      - intros Hn. exists w.1. done. }
    assert (∀ y, alive a y → ¬ late ch x z act y ↔ y ∈ insides ch a w) as Hins.
    { intros y Hy. rewrite Hlate, (elem_of_insides ch Hwf _ _ _ _ Hw Hwa). split; [|tauto]. intros Hn. split; [done|].
      destruct (decide (y ∈ insides ch a w)) as [Hi|Hi].
      - by apply (elem_of_insides ch Hwf _ _ _ _ Hw Hwa) in Hi as [_ Hi].
      - exfalso. apply Hn. intros He. apply Hi. by apply (elem_of_insides ch Hwf _ _ _ _ Hw Hwa). }
    assert (∀ y, y ∈ insides ch a w ↔ alive a y ∧ within ch z.1 y.1 ∧ ¬ late ch x z act y) as HL1.
    { intros y. split.
      - intros Hi. pose proof Hi as Hi'. apply (elem_of_insides ch Hwf _ _ _ _ Hw Hwa) in Hi' as [Hya He].
        split_and!; [done| |by apply Hins]. right. destruct Hzo as [Hzo|Hzo]; [by rewrite <-Hzo|]. by eapply (encloses_trans ch).
      - intros (Hya & _ & Hn). by apply Hins. }
    pose proof (insides_sorted ch Hwf _ _ _ Hw Hwa) as HsL1.
    set (L0 := filter (λ y, y ∉ insides ch a w) (sub ch a z)).
    assert (receiver ch x z act (Some w.1)) as Hrcv by (left; by exists w.1).
    assert (∀ q, Some w = Some q → alive a q) as Hwq by (by intros q [= <-]).
    assert (parts a x z act (Some w) (insides ch a w) L0) as Hparts.
    { split_and!; [done|done|done|done| |apply filter_sorted; by eapply sub_sorted].
      intros y. unfold L0. rewrite elem_of_list_filter, (elem_of_sub ch Hwf _ _ _ _ Hw Hz). split.
      - intros (H1 & H2 & H3). split_and!; [done|done|]. apply Hlate. intros He. apply H1.
        by apply (elem_of_insides ch Hwf _ _ _ _ Hw Hwa).
      - intros (H1 & H2 & H3). split_and!; [|done|done]. intros Hi. apply HL1 in Hi as (_ & _ & Hn). done. }
    set (B := λ a0, begins a a0 ∧ ch_relax ch = None).
    set (P := λ K, ∃ cx L1 L2, parts a x z act cx L1 L2 ∧ K = exits fe L1 ++ act_of (snd <$> cx) act e ++ exits fe L2).
    assert (∀ y s', failed ch (w :: H) P B y s s' →
      wp (drop_ ch U H w) (λ _ s', failed ch H P B y s s') (λ _ _, False) s') as Hdrop.
    { intros y s' Hf. apply (failed_drop ch U Hwf HU); [done| |done]. by intros a0 [_ ?]. }
    apply wp_bind. apply wp_finally. apply wp_bind, wp_gets, wp_bind.
    eapply wp_mono; [by apply (wp_terminate_held ch U Hwf HU H w (full (en s)) s)|..].
    2:{ intros y s1 Hf. apply Hdrop. apply (failed_extend _ (eq (exits fe (insides ch a w))) _ (act_of (Some w.2) act e ++ exits fe L0)).
        { intros K <-. exists (Some w), (insides ch a w), L0. done. }
        destruct Hf as [F1 F2 F3 F4]. split; [done..|]. by intros a0 [_ ?]. }
    intros [] s1 [E1 E2 E3 E4]. fold a in E1, E3. fold fe in E3. set (a2 := core s1) in *.
    assert (aunst a2 = Some w) as Hu2. { rewrite E1. by apply (unst_insides ch Hwf H). }
    apply wp_bind, wp_on_env. set (s2 := MSt a2 (set_ico true (en s1))).
    eapply wp_mono; [apply (wp_user_action (Some w) act e s2)|..].
    2:{ intros y s3 [Hc3 He3]. apply Hdrop. change (core s2) with a2 in Hc3. split.
        - rewrite Hc3. done.
        - left. rewrite Hc3, Hu2. done.
        - exists None, (exits fe (insides ch a w) ++ act_of (Some w.2) act e), (exits fe L0), []. split_and!; [|done|].
          + exists (Some w), (insides ch a w), L0. split; [done|]. by rewrite <-app_assoc.
          + eapply evx_before; [|exact He3]. eapply evo_trans_r; [exact E3|]. by apply evo_set_ico.
        - by intros a0 [_ ?]. }
    intros [] s3 (Hc3 & He3 & Hi3). change (core s2) with a2 in Hc3.
    assert (alive a2 w) as Hw2. { apply (wa_H _ _ _ (gd_wf _ _ _ E2)). left. }
    assert (busy ch H a2 w = true) as Hb2. { apply busy_true. by right; right; left. }
    eapply wp_mono; [apply wp_drop_busy; rewrite Hc3; done| |done]. intros _ s4 ->.
    assert (good H a2) as Hg2 by by eapply good_tighten.
    pose proof (gd_wf _ _ _ Hg2) as Hwf2. pose proof Hwf2 as Hwf2'. rewrite E1 in Hwf2'.
    assert (evo (exits fe (insides ch a w) ++ act_of (Some w.2) act e) (en s) (en s3)) as He03.
    { eapply evo_trans; [|exact He3]. eapply evo_trans_r; [exact E3|]. by apply evo_set_ico. }
    assert (alive a2 z) as Hz2.
    { rewrite E1. by apply (leave_insides_sub ch Hwf H H a w z (None, 0)). }
    assert (∀ r, occ (leave ch (sub ch a2 z) a2) !! r = occ (leave ch (sub ch a z) a) !! r) as Hocc.
    { intros r. rewrite E1. by apply (leave_insides_sub ch Hwf H H a w z r). }
    assert (∀ y, alive a2 y ↔ alive a y ∧ y ∉ insides ch a w) as Hal2.
    { intros y. rewrite E1. apply leave_alive. intros v Hv. by apply HL1 in Hv as [? _]. }
    assert (ctx_of ch a2 z.1 = ctx_of ch a z.1) as Hc2.
    { destruct Hctx as [Hc|(q & Hc & Hq & Hp)]; rewrite Hc.
      - unfold ctx_of in Hc |- *. destruct (parent ch z.1) as [q|] eqn:Hp; [|done].
        destruct (wa_par _ _ _ Hw _ _ Hz Hp) as [pq Hq]. unfold Abs.alive in Hq. simpl in Hq. congruence.
      - unfold ctx_of. rewrite Hp. change (alive a2 q). apply Hal2. split; [done|]. intros Hi.
        apply (elem_of_insides ch Hwf _ _ _ _ Hw Hwa) in Hi as [_ Hi]. apply (encloses_lt ch Hwf) in Hi.
        apply (parent_lt _ Hwf) in Hp. destruct Hzo as [Hzo|Hzo]; [lia|]. apply (encloses_lt ch Hwf) in Hzo. lia. }
    pose proof (Hup a2 H Hwf2 Hz2 Hc2) as Hup2.
    assert (gone ch H a2 z = sub ch a2 z) as Hgone by (unfold gone; by rewrite Hup2, app_nil_r).
    assert (parts a x z act (Some w) (insides ch a w) (sub ch a2 z)) as Hparts2.
    { split_and!; [done|done|done|done| |by eapply sub_sorted].
      intros y. rewrite (elem_of_sub ch Hwf _ _ _ _ Hwf2 Hz2), Hal2. split.
      - intros [[H1 H2] H3]. split_and!; [done|done|]. apply Hlate. intros He. apply H2.
        by apply (elem_of_insides ch Hwf _ _ _ _ Hw Hwa).
      - intros (H1 & H2 & H3). split_and!; [done| |done]. intros Hi. apply HL1 in Hi as (_ & _ & Hn). done. }
    assert (full (en s3) = fe) as Hfe by by rewrite (evo_full _ _ _ _ He03).
    apply wp_bind, wp_gets, wp_bind. rewrite Hfe.
    eapply wp_mono; [apply (wp_terminate_state ch U Hwf HU H z fe s3); by rewrite ?Hc3|..].
    2:{ intros y s4 (_ & _ & Hf). eapply failed_trans; [exact He03| | |exact Hf].
        - rewrite Hc3, Hgone. intros K <-. exists (Some w), (insides ch a w), (sub ch a2 z). split; [done|]. by rewrite <-app_assoc.
        - by intros a0 [_ ?]. }
    intros [] s4 [R1 R2 R3 R4]. rewrite Hc3, Hgone in R1, R3. apply wp_on_env. split; simpl.
    + rewrite R1. apply map_eq. exact Hocc.
    + rewrite R1, anxt_leave, E1, anxt_leave. done.
    + rewrite R1, <-Hgone, (unst_gone ch Hwf H _ _ _ Hwf2 Hz2).
      * unfold Leave.top. rewrite Hup2. done.
      * right. exists w. split; [done|]. done.
    + done.
    + exists (Some w), (insides ch a w), (sub ch a2 z). split; [done|].
      eapply evo_trans_r; [|by apply evo_set_ico]. rewrite app_assoc. by eapply evo_trans.
    + done.
  - (* the action is called when everything is left *)
    assert (∀ y, ¬ late ch x z act y) as Hno.
    { intros y (o & H1 & H2 & H3 & _). by apply (Hes o). }
    assert (parts a x z act (ctx_of ch a z.1) (sub ch a z) []) as Hparts.
    { split_and!.
      - right. split; [exact Hes|]. destruct Hctx as [Hc|(q & -> & _ & Hp)]; [|done]. rewrite Hc.
        destruct z as [zc zp]. symmetry. by eapply ctx_of_None.
      - intros q Hq. destruct Hctx as [Hc|(q' & Hc & Hq' & _)]; congruence.
      - intros y. rewrite (elem_of_sub ch Hwf _ _ _ _ Hw Hz). specialize (Hno y). tauto.
      - by eapply sub_sorted.
      - intros y. specialize (Hno y). split; [by intros ?%elem_of_nil|]. tauto.
      - constructor. }
    pose proof (Hup a H Hw Hz eq_refl) as Hup0.
    assert (gone ch H a z = sub ch a z) as Hgone by (unfold gone; by rewrite Hup0, app_nil_r).
    assert (unst_in a z) as Huz.
    { destruct Hu as [Hu|(w & Hu & Hwin)]; [by left|]. right. exists w. split; [done|]. by eapply within_trans. }
    apply wp_bind, wp_gets, wp_bind. fold fe.
    eapply wp_mono; [by apply (wp_terminate_state ch U Hwf HU H z fe s)|..].
    2:{ intros y s2 (Hfe & Hi & Hf). fold a in Hf. apply (failed_extend _ (eq (exits fe (gone ch H a z))) _ (act_of (snd <$> ctx_of ch a z.1) act e ++ [])).
        { intros K <-. rewrite Hgone. exists (ctx_of ch a z.1), (sub ch a z), []. done. }
        destruct Hf as [F1 F2 F3 F4]. split; [done..|]. intros a0 [Hb _]. by apply F4. }
    intros [] s2 [R1 R2 R3 R4]. fold a in R1, R3. rewrite Hgone in R1, R3.
    assert (aunst (core s2) = ctx_of ch a z.1) as Hu2.
    { rewrite R1, <-Hgone, (unst_gone ch Hwf H _ _ _ Hw Hz Huz). unfold Leave.top. by rewrite Hup0. }
    apply wp_bind, wp_on_env. set (s3 := MSt (core s2) (set_ico true (en s2))).
    assert (evo (exits fe (sub ch a z)) (en s) (en s3)) as He3.
    { eapply evo_trans_r; [exact R3|]. by apply evo_set_ico. }
    eapply wp_mono; [apply (wp_user_action (ctx_of ch a z.1) act e s3)|..].
    + intros [] s4 (Hc4 & He4 & Hi4). cbn [core s3] in Hc4. split.
      * by rewrite Hc4, R1.
      * by rewrite Hc4, R1, anxt_leave.
      * by rewrite Hc4, Hu2.
      * by rewrite Hc4.
      * exists (ctx_of ch a z.1), (sub ch a z), []. split; [done|]. simpl. rewrite app_nil_r. by eapply evo_trans.
      * by rewrite Hi4.
    + intros y s4 [Hc4 He4]. cbn [core s3] in Hc4. split.
      * by rewrite Hc4.
      * rewrite Hc4. eapply (halted_ctx H a); [done|done|done|by rewrite R1|done].
      * exists None, (exits fe (sub ch a z) ++ act_of (snd <$> ctx_of ch a z.1) act e), [], []. split_and!; [|done|].
        -- exists (ctx_of ch a z.1), (sub ch a z), []. split; [done|]. simpl. by rewrite !app_nil_r.
        -- by eapply evx_before.
      * intros a0 [[-> _] _]. rewrite Hc4. intros u Hu'. rewrite Hu2 in Hu'. split.
        -- exists (pos ch z.1). rewrite R1. by apply (newvac_sub_at ch Hwf [] a z).
        -- intros v k Hv. rewrite R1 in Hv. apply (newvac_sub ch Hwf [] a z) in Hv as [Hc _]; [|done..]. left. congruence.
Qed.

Lemma wp_transit tr x d act e (s : S) :
  good [] (core s) → hist_ok ch (en s) → knows tr (core s) → alive (core s) x → unst_in (core s) x →
  transit_ok ch x.1 d = true →
  wp (a_decide ch U x e (DTransit d act))
    (λ r s', ∃ ks, moves_on s s' ks ∧ effect ch (tr) (full (en s)) e x (DTransit d act) ks (Done r) ∧
       config (λ a, aunst a = None) (core s) (core s') ks)
    (λ y s', ∃ ks, moves_on s s' ks ∧ effect ch (tr) (full (en s)) e x (DTransit d act) ks (Threw y) ∧
       config (halted_from (core s)) (core s) (core s') ks) s.
Proof.
  intros Hg Hh HT Hx Hu Hok. cbn [a_decide]. apply wp_bind. unfold a_transit. apply wp_bind, wp_emit.
  set (s1 := MSt (core s) (log (OTransit x.2 x.1 d) (en s))). rewrite Hok.
  pose proof (gd_wf _ _ _ Hg) as Hw.
  destruct (common_context_spec ch Hwf x.1 (init_cls d)) as (i & cc & t & -> & Hic & Hts & Hpt & Hin).
  apply wp_bind. eapply wp_mono; [by apply (wp_outward i x t s1)| |done]. intros z s1' (-> & Hz & Hzt).
  apply wp_bind, wp_gets, wp_bind, wp_assert; [done|]. cbn [core s1].
  set (a := core s) in *. set (ctx := ctx_of ch a z.1). set (H := opt_list ctx).
  set (path := path_below ch cc (init_cls d)).
  (* the plan *)
  assert (∀ ks, moved (OTransit x.2 x.1 d :: ks)) as Hmv.
  { intros ks. eexists. split; [left|done]. }
  set (fe := full (en s)).
  set (P := transit_plan ch (tr) fe e x d act).
  assert (∀ cx L1 L2 cs kb, parts a x z act cx L1 L2 → builds ch (anxt a) path d cs kb →
    P ((exits fe L1 ++ act_of (snd <$> cx) act e ++ exits fe L2) ++ kb)) as HP.
  { intros cx L1 L2 cs kb (Hp0 & Hpc & Hp1 & Hp2 & Hp3 & Hp4) Hb. exists cc, z, cx, L1, L2, (anxt a), cs, kb. split_and!; try done.
    - by apply (kn_lives _ _ HT z).
    - congruence.
    - by rewrite Hzt.
    - intros q Hq. by apply (kn_lives _ _ HT q), Hpc.
    - intros y. rewrite Hp1. pose proof (kn_lives _ _ HT y) as Hl. fold a in Hl. tauto.
    - intros y. rewrite Hp3. pose proof (kn_lives _ _ HT y) as Hl. fold a in Hl. tauto.
    - intros k y Hk _. by apply (kn_fresh _ _ HT). }
  assert (init_ok ch d = true) as Hid.
  { unfold transit_ok in Hok. by apply andb_true_iff in Hok as [? _]. }
  assert (valid ch path d) as Hval.
  { split; [done|]. apply (chain_path_below ch Hwf). apply Hic. }
  destruct (path_hd ch Hwf cc (init_cls d) (ic_right _ _ _ _ Hic)) as [Hfp Hfw].
  change (hd (init_cls d) (path_below ch cc (init_cls d))) with (first path d) in Hfp, Hfw.
  assert (region ch (first path d) = region ch z.1) as Hreg.
  { symmetry. rewrite Hzt. by apply (transit_ok_regions ch Hwf x.1 d cc). }
  destruct (plan_total ch Hwf (anxt a) path d Hval) as (kb0 & cs0 & Hkb0).
  (* the context *)
  assert (ctx = None ∧ cc = None ∨ ∃ q, ctx = Some q ∧ cc = Some q.1 ∧ alive a q) as Hctx.
  { destruct z as [zc zp]. cbn [fst] in *. subst zc. unfold ctx. destruct (ctx_of ch a t) as [q|] eqn:Hc.
    - right. exists q. destruct (ctx_of_alive _ _ _ _ _ _ Hw Hz Hc) as [Hq Hpq]. by rewrite <-Hpt.
    - left. split; [done|]. rewrite <-Hpt. by eapply ctx_of_None. }
  assert (good H a) as HgH.
  { unfold H. destruct Hctx as [[-> _]|(q & -> & _ & Hq)]; [done|]. by apply good_weaken. }
  pose proof (gd_wf _ _ _ HgH) as HwH.
  (* the end, after an exception *)
  assert (∀ y s2, failed ch H P (λ a0, begins a a0 ∧ ch_relax ch = None) y s1 s2 →
    wp (drop_opt ch U [] ctx) (λ _ s', failed ch [] P (λ a0, begins a a0 ∧ ch_relax ch = None) y s1 s') (λ _ _, False) s2) as Hdrop.
  { intros y s2 Hf. unfold H in Hf. destruct ctx as [q|]; [|by apply wp_ret].
    destruct Hctx as [[? _]|(q' & [= <-] & Hcq & Hq)]; [done|].
    assert (pos ch z.1 < nreg ch q.1) as Hpz by (apply (pos_lt _ Hwf); congruence).
    apply (failed_drop ch U Hwf HU); [lia| |done]. intros a0 [[-> _] _]. exists (pos ch z.1). split; [done|].
    intros (_ & _ & Hv). unfold Abs.alive, region in Hz. cbn [core s1] in Hz.
    assert (parent ch z.1 = Some q.1) as Hpq by congruence. fold a in Hz. rewrite Hpq in Hz. congruence. }
  apply wp_finally, wp_bind.
  (* leave *)
  assert (∀ y s2, failed ch [] P (λ a0, begins a a0 ∧ ch_relax ch = None) y s1 s2 → ∃ ks, moves_on s s2 ks ∧
    effect ch (tr) (full (en s)) e x (DTransit d act) ks (Threw y) ∧
    config (halted_from (core s)) (core s) (core s2) ks) as Hend.
  { intros y s2 Hf. destruct (failed_moves_on _ _ _ _ _ Hf Hh) as (ks & Hm & Hks & Hhalt & Hmk).
    exists (OTransit x.2 x.1 d :: ks). split_and!.
    - by eapply moves_on_cons.
    - by apply ef_transit_x.
    - right. split; [|done]. split; [done|]. intros Hu0 Hrel0. by apply Hmk. }
  assert (termination_state ch x.1 i = Some z.1) as Hts' by congruence.
  assert (within ch z.1 x.1) as Hin' by by rewrite Hzt.
  eapply wp_mono; [by apply (wp_depart H x z i act e s1)|..].
  2:{ intros y s2 Hf. cbn [core s1] in Hf. eapply wp_mono; [apply Hdrop| |done].
      - eapply failed_extend; [|exact Hf]. intros K (cx & L1 & L2 & Hp & ->). by apply (HP cx L1 L2 cs0 kb0).
      - intros ? s3. apply Hend. }
  intros [] s4 [D1 D2 D3 D4 (cx & L1 & L2 & Hp & He14) Hi4]. cbn [core en s1] in D1, D2, D3, Hp, He14.
  change (full (log (OTransit x.2 x.1 d) (en s))) with fe in He14. fold a ctx in D1, D2, D3, Hp.
  assert (occ (core s4) !! region ch z.1 = None) as Hz4.
  { rewrite D1, occ_leave. rewrite decide_True; [done|]. apply elem_of_list_In, in_map_iff. exists z. split; [done|].
    apply elem_of_list_In. apply (elem_of_sub ch Hwf _ _ _ _ Hw Hz). split; [done|by left]. }
  assert (∀ q, ctx = Some q → alive (core s4) q) as Hq4.
  { intros q Hc. apply (wa_unst _ _ _ (gd_wf _ _ _ D4)). by rewrite D3. }
  assert (∀ w k, newvac ch a (core s4) w k ↔ newvac ch a (leave ch (sub ch a z) a) w k) as Hnv.
  { intros w k. unfold newvac, vacant, Abs.alive. by rewrite D1. }
  assert (∀ w k, newvac ch a (core s4) w k → ctx = Some w ∧ k = pos ch z.1) as Hnv4.
  { intros w k. rewrite Hnv. by apply (newvac_sub ch Hwf [] a z). }
  assert (∀ w, ctx = Some w → newvac ch a (core s4) w (pos ch z.1)) as Hnv4'.
  { intros w Hc. rewrite Hnv. by apply (newvac_sub_at ch Hwf [] a z). }
  assert (hist_ok ch (en s4)) as Hh4. { by apply (evo_hist _ _ _ _ He14). }
  (* enter *)
  eapply wp_mono; [apply (wp_constructs ch U Hwf HU H path d ctx s4)|..]; try done.
  - unfold ctx_ok. rewrite Hfp. unfold H.
    destruct Hctx as [[Hc ->]|(q & Hc & -> & Hq)]; rewrite Hc; [done|].
    split_and!; [done|by apply Hq4|left].
  - by rewrite Hreg.
  - split; [by rewrite D3|]. left. by rewrite Hi4.
  - intros [] s5 [(cs & kb & Hb & Hc5 & He5) B2 B3 B4 B5 _ _].
    assert (wp (drop_opt ch U [] ctx) (λ _ s', s' = s5 ∧ good [] (core s')) (λ _ _, False) s5) as Hfin.
    { unfold H in B2. destruct ctx as [q|] eqn:Hcx; cbn [drop_opt opt_list] in *; [|by apply wp_ret].
      destruct Hctx as [[? _]|(q' & [= <-] & Hcc & Hq)]; [done|].
      assert (alive (core s5) q) as Hq5. { apply (wa_H _ _ _ (gd_wf _ _ _ B2)). left. }
      assert (busy ch [] (core s5) q = true) as Hb5.
      { apply busy_true. left. rewrite kids_nil. intros Hn. apply B5. unfold region. rewrite Hfp, Hcc.
        apply Hn. apply (pos_lt _ Hwf). by rewrite Hfp, Hcc. }
      eapply wp_mono; [by apply wp_drop_busy| |done]. intros _ s6 ->. split; [done|]. by eapply good_tighten. }
    eapply wp_mono; [exact Hfin| |done]. intros _ s6 [-> Hg5]. apply wp_ret.
    rewrite D2 in Hb.
    destruct (evo_moves_on s1 s5 _ P Hg5 Hh (evo_trans _ _ _ _ _ _ He14 He5)) as (ks & Hm & Hks).
    { by apply (HP cx L1 L2 cs kb). }
    exists (OTransit x.2 x.1 d :: ks). split_and!.
    + by eapply moves_on_cons.
    + by constructor.
    + right. split; [|done]. by rewrite Hc5.
  - intros y s5 Hf. eapply wp_mono; [apply Hdrop| |done].
    + eapply failed_trans; [exact He14| | |exact Hf].
      { rewrite D2. intros K (cs & Hb). by apply (HP cx L1 L2 cs). }
      intros a0 [[-> _] _]. split.
      { intros w Hwa. rewrite D2. by apply (wa_fresh _ _ _ Hw). }
      assert (pos ch (first path d) = pos ch z.1) as Hpos by (unfold region in Hreg; by injection Hreg).
      intros u Hu'. rewrite D3 in Hu'. exists u. rewrite Hpos. split_and!.
      * done.
      * by left.
      * exists (pos ch z.1). by apply Hnv4'.
      * intros w k [Hc _]%Hnv4. left. congruence.
      * intros _ w k [Hc Hk]%Hnv4. split; congruence.
      * intros (Hi & _). rewrite Hi4 in Hi. done.
    + intros ? s6. apply Hend.
Qed.

(** ** Reactions *)
(** [x] can react: the machine is in order, [x] is active, and if the machine is unstable, [x] is the
    outermost unstable state or an outer state of it. *)
Record ready (tr : list obs) (x : aid) (s : S) : Prop := {
  rd_good : good [] (core s);
  rd_hist : hist_ok ch (en s);
  rd_knows : knows tr (core s);
  rd_alive : alive (core s) x;
  rd_unst : unst_in (core s) x }.

(** A piece of event processing with outcome [o] follows the grammar [P]. *)
Definition yields (P : list okind → outcome → Prop) (s s' : S) (o : outcome) : Prop :=
  ∃ ks, moves_on s s' ks ∧ P ks o ∧
    config (match o with Done _ => λ a, aunst a = None | Threw _ => halted_from (core s) end) (core s) (core s') ks ∧
    (∀ r, o = Done r → moved ks → r = RDiscard).

Lemma moves_on_refl (s : S) : good [] (core s) → hist_ok ch (en s) → moves_on s s [].
Proof. intros Hg Hh. split; try done. unfold under. simpl. by rewrite app_nil_r. Qed.

Lemma not_moved_nil : ¬ moved [].
Proof. intros (k & Hk & _). by apply elem_of_nil in Hk. Qed.
Lemma not_moved_cons k ks : moves k = false → ¬ moved ks → ¬ moved (k :: ks).
Proof. intros Hk Hn (k' & Hin & Hm). apply elem_of_cons in Hin as [->|Hin]; [congruence|]. apply Hn. by exists k'. Qed.
Lemma moved_cons k ks : moves k = false → moved (k :: ks) ↔ moved ks.
Proof.
  intros Hk. split.
  - intros (k' & Hin & Hm). apply elem_of_cons in Hin as [->|Hin]; [congruence|]. by exists k'.
  - intros (k' & Hin & Hm). exists k'. split; [by right|done].
Qed.
Lemma moved_app ks ks' : moved (ks ++ ks') ↔ moved ks ∨ moved ks'.
Proof. unfold moved. setoid_rewrite elem_of_app. naive_solver. Qed.
Lemma quiet_moves k : quiet k = true → moves k = false.
Proof. by destruct k. Qed.
Lemma not_moved_calls ks : calls ks → ¬ moved ks.
Proof.
  intros Hc (k & Hin & Hm). unfold calls in Hc. rewrite Forall_forall in Hc. destruct (Hc k Hin) as [Hq _].
  apply quiet_moves in Hq. congruence.
Qed.

Lemma config_cons Q a a' k ks : moves k = false → config Q a a' ks → config Q a a' (k :: ks).
Proof. intros Hk. unfold config. by rewrite (moved_cons k ks Hk). Qed.
Lemma config_app_r Q a a' ks ks' : ¬ moved ks' → config Q a a' ks → config Q a a' (ks ++ ks').
Proof. intros Hk. unfold config. rewrite moved_app. tauto. Qed.
Lemma config_app_l Q a a' ks ks' : ¬ moved ks' → config Q a a' ks → config Q a a' (ks' ++ ks).
Proof. intros Hk. unfold config. rewrite moved_app. tauto. Qed.

Lemma good_dfr a x : good [] a → alive a x → good [] (set_dfr (dfr a ∪ {[x.2]}) a).
Proof.
  intros [[W1 W2 W3 W4 W5 W6 W7 W8 W9] G2 G3 G4] Hx. split; try done. split; try done.
  intros p Hp. apply elem_of_union in Hp as [Hp|Hp]; [by apply W9|].
  apply elem_of_singleton in Hp as ->. by apply W4.
Qed.

Lemma wp_decide tr x e r (s : S) :
  ready tr x s → (∀ d act, r = DTransit d act → transit_ok ch x.1 d = true) →
  wp (a_decide ch U x e r)
    (λ q s', yields (effect ch tr (full (en s)) e x r) s s' (Done q))
    (λ y s', yields (effect ch tr (full (en s)) e x r) s s' (Threw y)) s.
Proof.
  intros [Hg Hh HT Hx Hu] Hok. destruct r as [ | | |d act| |y].
  - apply wp_ret. exists []. split_and!; [by apply moves_on_refl|apply ef_discard| |by intros r [= <-]].
    left. split; [done|apply not_moved_nil].
  - apply wp_ret. exists []. split_and!; [by apply moves_on_refl|apply ef_forward| |].
    + left. split; [done|apply not_moved_nil].
    + intros r _ []%not_moved_nil.
  - cbn [a_decide]. apply wp_bind, wp_gets, wp_bind, wp_assert; [done|].
    apply wp_bind, wp_on_core, wp_ret. exists []. split_and!.
    + split; try done; [by apply good_dfr|]. unfold under. simpl. by rewrite app_nil_r.
    + apply ef_defer.
    + left. split; [done|apply not_moved_nil].
    + intros r _ []%not_moved_nil.
  - eapply wp_mono; [by apply (wp_transit tr); [..|by eapply Hok]|..].
    + intros q s' (ks & H1 & H2 & H3). exists ks. split_and!; try done. intros r [= <-] _. by inversion H2.
    + intros y s' (ks & H1 & H2 & H3). exists ks. by split_and!.
  - eapply wp_mono; [by apply (wp_terminate_reaction tr)|..].
    + intros q s' (ks & H1 & H2 & H3). exists ks. split_and!; try done. intros r [= <-] _. by inversion H2.
    + intros y s' (ks & H1 & H2 & H3). exists ks. by split_and!.
  - cbn [a_decide]. apply wp_bind, wp_emit, wp_throw. exists [OThrow y]. split_and!.
    + by apply (moves_on_cons s _ _ _ [] eq_refl), moves_on_refl.
    + apply ef_throw.
    + left. split; [done|]. apply not_moved_cons; [done|apply not_moved_nil].
    + done.
Qed.

Lemma same_config_trans a a1 a2 : same_config a a1 → same_config a1 a2 → same_config a a2.
Proof. intros [A1 A2 A3 A4] [B1 B2 B3 B4]. split; congruence. Qed.

Lemma yields_after (P P' : list okind → outcome → Prop) s s1 s' ks0 o :
  moves_on s s1 ks0 → same_config (core s) (core s1) → ¬ moved ks0 →
  (∀ ks, P ks o → P' (ks0 ++ ks) o) → yields P s1 s' o → yields P' s s' o.
Proof.
  intros Hm Hs Hn HP (ks & H1 & H2 & H3 & H4). exists (ks0 ++ ks). split_and!.
  - by eapply moves_on_app.
  - by apply HP.
  - apply config_app_l; [done|]. destruct H3 as [[H3 H5]|[H3 H5]]; [left|right].
    + split; [|done]. by eapply same_config_trans.
    + split; [|done]. destruct o; [done|]. by eapply halted_from_same.
  - intros r Hr. rewrite moved_app. intros [?|?]; [done|]. by eapply H4.
Qed.

Lemma ready_same tr x (s s1 : S) ks : ready tr x s → moves_on s s1 ks → same_config (core s) (core s1) →
  ready tr x s1.
Proof.
  intros [Hg Hh HT Hx Hu] Hm [S1 S2 S3 S4]. split; [apply Hm|apply Hm| | |].
  - eapply knows_same; [done..|lia].
  - unfold Abs.alive. by rewrite S1.
  - unfold unst_in. by rewrite S3.
Qed.

Lemma moves_on_log1 (s : S) k : good [] (core s) → hist_ok ch (en s) →
  moves_on s (MSt (core s) (log k (en s))) [k].
Proof. intros Hg Hh. by apply (moves_on_cons s _ _ _ [] eq_refl), moves_on_refl. Qed.

Lemma moves_on_user (s s' : S) : good [] (core s) → hist_ok ch (en s) →
  core s' = core s → evo [] (en s) (en s') → ∃ ks, moves_on s s' ks ∧ calls ks.
Proof.
  intros Hg Hh Hc He. destruct (evo_calls _ _ _ He) as (ks & Ht & Hks). exists ks. split; [|done].
  split; [by rewrite Hc|by apply (evo_hist _ _ _ _ He)|apply (evo_trig _ _ _ _ He)|apply (evo_full _ _ _ _ He)|done].
Qed.

(** Calling user code that may throw. *)
Lemma wp_called (f : view → W → W * list cmd * option exn) (s : S) :
  (∀ v w, forallb (cmd_ok ch) (f v w).1.2 = true) → good [] (core s) → hist_ok ch (en s) →
  wp (ucall_x ch abs_leaves f)
    (λ _ s', ∃ ks, moves_on s s' ks ∧ core s' = core s ∧ called ks None ∧ ¬ moved ks)
    (λ y s', ∃ ks, moves_on s s' ks ∧ core s' = core s ∧ called ks (Some y) ∧ ¬ moved ks) s.
Proof.
  intros Hok Hg Hh. eapply wp_mono; [by apply (wp_ucall_x ch abs_leaves)|..].
  - intros [] s1 [Hc [Hu _ _]]. destruct (moves_on_user _ _ Hg Hh Hc Hu) as (ks & Hm & Hks).
    exists ks. split_and!; try done; [by constructor|by apply not_moved_calls].
  - intros y s1 [Hc (v & [Hu _ _] & Hv)]. destruct s1 as [a v1]. simpl in *. subst.
    destruct (moves_on_user s (MSt (core s) v) Hg Hh eq_refl Hu) as (ks & Hm & Hks).
    exists (ks ++ [OThrow y]). split_and!; [by apply (moves_on_log s (MSt (core s) v))|done|by constructor|].
    rewrite moved_app. intros [?%not_moved_calls|Hm']; [done|done|]. revert Hm'. apply not_moved_cons; [done|apply not_moved_nil].
Qed.

Lemma wp_run_reaction tr x e i r (s : S) :
  ready tr x s → r ∈ cd_reacts (cd ch x.1) → find_reaction 0 (cd_reacts (cd ch x.1)) e = Some (i, r) →
  wp (a_run_reaction ch U x i r e)
    (λ q s', yields (turn ch U tr (full (en s)) e x) s s' (Done q))
    (λ y s', yields (turn ch U tr (full (en s)) e x) s s' (Threw y)) s.
Proof.
  intros Hr Hin Hf. pose proof Hr as [Hg Hh HT Hx Hu]. apply (wf_reaction _ Hwf) in Hin.
  assert (∀ (P : list okind → outcome → Prop) s' o,
    (∀ ks, P ks o → turn ch U tr (full (en s)) e x ks o) →
    yields P s s' o → yields (turn ch U tr (full (en s)) e x) s s' o) as Hy.
  { intros P s' o HP (ks & H1 & H2 & H3 & H4). exists ks. split_and!; auto. }
  destruct r as [p d act|p|p|p act|p]; cbn [a_run_reaction].
  - eapply wp_mono; [apply (wp_decide tr); [done|by intros ? ? [= <- <-]]|..].
    + intros q s'. apply Hy. intros ks. by eapply tu_transition.
    + intros q s'. apply Hy. intros ks. by eapply tu_transition.
  - eapply wp_mono; [apply (wp_decide tr); [done|done]|..].
    + intros q s'. apply Hy. intros ks. by eapply tu_deferral.
    + intros q s'. apply Hy. intros ks. by eapply tu_deferral.
  - eapply wp_mono; [apply (wp_decide tr); [done|done]|..].
    + intros q s'. apply Hy. intros ks. by eapply tu_termination.
    + intros q s'. apply Hy. intros ks. by eapply tu_termination.
  - destruct act as [n|]; cbn [a_run_reaction].
    + apply wp_bind, wp_bind, wp_emit.
      pose proof (moves_on_log1 s (OInState n e) Hg Hh) as Hm0.
      eapply wp_mono; [apply wp_called; [apply (ok_instate _ _ HU)|done|done]|..].
      * intros [] s1 (ks & Hm & Hc & Hca & Hn). apply wp_ret. exists ([OInState n e] ++ ks). split_and!.
        -- by eapply moves_on_app.
        -- by apply (tu_in_state_call _ _ _ _ _ _ i p n ks None).
        -- left. split; [split; by rewrite Hc|]. by apply not_moved_cons.
        -- by intros r [= <-].
      * intros y s1 (ks & Hm & Hc & Hca & Hn). exists ([OInState n e] ++ ks). split_and!.
        -- by eapply moves_on_app.
        -- by apply (tu_in_state_call _ _ _ _ _ _ i p n ks (Some y)).
        -- left. split; [split; by rewrite Hc|]. by apply not_moved_cons.
        -- done.
    + apply wp_bind, wp_ret, wp_ret. exists []. split_and!; [by apply moves_on_refl|by eapply tu_in_state| |by intros r [= <-]].
      left. split; [done|apply not_moved_nil].
  - apply wp_bind, wp_emit, wp_bind. set (s0 := MSt (core s) (log (OReact x.2 x.1 i e) (en s))).
    pose proof (moves_on_log1 s (OReact x.2 x.1 i e) Hg Hh) as Hm0. fold s0 in Hm0.
    eapply wp_mono; [apply (wp_ucall ch abs_leaves); apply (ok_react _ _ HU)| |done].
    intros r s1 (Hc1 & [Hu1 _ _] & Hr1).
    destruct (moves_on_user s0 s1 Hg Hh Hc1 Hu1) as (ks & Hm1 & Hks).
    assert (moves_on s s1 ([OReact x.2 x.1 i e] ++ ks)) as Hm01 by by eapply moves_on_app.
    assert (same_config (core s) (core s1)) as Hsc by (by split; rewrite Hc1).
    assert (¬ moved ([OReact x.2 x.1 i e] ++ ks)) as Hn by (by apply not_moved_cons, not_moved_calls).
    rewrite <-(mo_full _ _ _ Hm01).
    eapply wp_mono; [apply (wp_decide tr)|..].
    + by eapply ready_same.
    + intros d act Hd. eapply (ok_decide _ _ HU). by rewrite <-Hr1.
    + intros q s'. eapply yields_after; [done..|]. intros ks' Hef. simpl. rewrite Hr1 in Hef. by eapply tu_custom.
    + intros q s'. eapply yields_after; [done..|]. intros ks' Hef. simpl. rewrite Hr1 in Hef. by eapply tu_custom.
Qed.

Lemma wp_local_react tr x e (s : S) : ready tr x s →
  wp (a_local_react ch U x 0 (cd_reacts (cd ch x.1)) e)
    (λ q s', yields (turn ch U tr (full (en s)) e x) s s' (Done q))
    (λ y s', yields (turn ch U tr (full (en s)) e x) s s' (Threw y)) s.
Proof.
  intros Hr.
  assert (∀ l i, (∀ r, r ∈ l → r ∈ cd_reacts (cd ch x.1)) →
    find_reaction i l e = find_reaction 0 (cd_reacts (cd ch x.1)) e →
    wp (a_local_react ch U x i l e)
    (λ q s', yields (turn ch U tr (full (en s)) e x) s s' (Done q))
    (λ y s', yields (turn ch U tr (full (en s)) e x) s s' (Threw y)) s) as Hind; [|by apply Hind].
  induction l as [|r l IH]; intros i Hin Hf; cbn [a_local_react find_reaction] in *.
  - apply wp_ret. exists []. split_and!; [by apply moves_on_refl; apply Hr|by apply tu_none| |].
    + left. split; [done|apply not_moved_nil].
    + intros r _ []%not_moved_nil.
  - destruct (matches (reaction_pat r) e).
    + apply wp_run_reaction; [done| |done]. apply Hin. left.
    + apply IH; [|done]. intros r' Hr'. apply Hin. by right.
Qed.

Lemma moves_on_same_log (s s1 : S) ks k a : moves_on s s1 ks → a = core s1 →
  moves_on s (MSt a (log k (en s1))) (ks ++ [k]).
Proof. intros Hm ->. by apply moves_on_log. Qed.

Lemma config_keeps a a' ks : config (λ a, aunst a = None) a a' ks → ¬ moved ks → same_config a a'.
Proof. intros [[? _]|[_ ?]] Hn; done. Qed.

Lemma wp_react_impl tr x e n (s : S) : ready tr x s → x.1 < n →
  wp (a_react_impl ch U n x e)
    (λ q s', yields (search ch U tr (full (en s)) e x) s s' (Done q))
    (λ y s', yields (search ch U tr (full (en s)) e x) s s' (Threw y)) s.
Proof.
  revert x s. induction n as [|n IH]; intros x s Hr Hn; [lia|]. cbn [a_react_impl].
  pose proof Hr as [Hg Hh HT Hx Hu].
  apply wp_bind, wp_gets, wp_bind, wp_assert; [done|]. apply wp_bind, wp_emit.
  set (s0 := MSt (core s) (log (OVisit x.2 x.1 e) (en s))).
  pose proof (moves_on_log1 s (OVisit x.2 x.1 e) Hg Hh) as Hm0. fold s0 in Hm0.
  assert (¬ moved [OVisit x.2 x.1 e]) as Hn0 by (apply not_moved_cons; [done|apply not_moved_nil]).
  assert (ready tr x s0) as Hr0 by by eapply ready_same.
  apply wp_bind. eapply wp_mono; [by apply (wp_local_react tr)|..].
  2:{ intros y s1. change (full (en s0)) with (full (en s)). eapply yields_after; [done..|].
      intros ks Ht. by apply se_throw. }
  intros r s1 (ks & Hm1 & Ht & Hc1 & Hd). change (full (en s0)) with (full (en s)) in Ht.
  apply wp_bind, wp_emit.
  assert (∀ r', moves (OResult x.2 x.1 r') = false) as Hmr by done.
  assert (moves_on s (MSt (core s1) (log (OResult x.2 x.1 r) (en s1))) (([OVisit x.2 x.1 e] ++ ks) ++ [OResult x.2 x.1 r])) as Hm2.
  { apply moves_on_log. by eapply moves_on_app. }
  destruct (decide (r = RForward)) as [->|Hne].
  2:{ assert (wp (ret r) (λ q s', yields (search ch U tr (full (en s)) e x) s s' (Done q))
        (λ y s', yields (search ch U tr (full (en s)) e x) s s' (Threw y))
        (MSt (core s1) (log (OResult x.2 x.1 r) (en s1)))) as Hw.
      { apply wp_ret. eexists. split_and!; [exact Hm2| | |].
        - simpl. by apply se_stop.
        - apply config_app_r; [by apply not_moved_cons; [|apply not_moved_nil]|].
          by apply config_app_l.
        - intros r' [= <-]. rewrite !moved_app. intros [[?|?]|Hmv]; [done|by apply Hd|].
          exfalso. revert Hmv. by apply not_moved_cons; [|apply not_moved_nil]. }
      by destruct r. }
  assert (¬ moved ks) as Hnk. { intros Hmv. by specialize (Hd _ eq_refl Hmv). }
  assert (same_config (core s) (core s1)) as Hsc by by eapply config_keeps.
  assert (¬ moved (([OVisit x.2 x.1 e] ++ ks) ++ [OResult x.2 x.1 RForward])) as Hnm.
  { rewrite !moved_app. intros [[?|?]|Hmv]; [done|done|]. revert Hmv. by apply not_moved_cons; [|apply not_moved_nil]. }
  assert (ready tr x (MSt (core s1) (log (OResult x.2 x.1 RForward) (en s1)))) as Hr2 by (by apply (ready_same tr x s _ _ Hr Hm2)).
  apply wp_bind, wp_gets, wp_bind, wp_assert; [exact (rd_alive _ _ _ Hr2)|]. cbn [core].
  pose proof Hr2 as [Hg2 Hh2 HT2 Hx2 Hu2]. cbn [core en] in Hg2, Hh2, HT2, Hx2, Hu2.
  pose proof (gd_wf _ _ _ Hg2) as Hw2.
  destruct (ctx_of ch (core s1) x.1) as [q|] eqn:Hq.
  - destruct x as [c p]. destruct (ctx_of_alive _ _ _ _ _ _ Hw2 Hx2 Hq) as [Hqa Hpq]. cbn [fst snd] in *.
    pose proof (mo_full _ _ _ Hm2) as Hf2. cbn [en] in Hf2.
    change (full (log (OResult p c RForward) (en s1))) with (full (en (MSt (core s1) (log (OResult p c RForward) (en s1))))) in Hf2.
    assert (∀ ks' o, search ch U tr (full (en s)) e q ks' o → search ch U tr (full (en s)) e (c, p)
      (([OVisit p c e] ++ ks ++ [OResult p c RForward]) ++ ks') o) as Hse.
    { intros ks' o Hs. simpl. rewrite <-app_assoc. simpl. eapply (se_out _ _ _ _ _ (c, p)); [done|done| |done].
      by apply (kn_lives _ _ HT2). }
    eapply wp_mono; [apply IH|..].
    + split; try done. destruct Hu2 as [Hu2|(w & Hu2 & Hwi)]; [by left|]. right. exists w. split; [done|].
      simpl in Hwi. eapply (within_trans ch); [|exact Hwi]. right. rewrite <-Hpq. constructor.
    + pose proof (parent_lt _ Hwf _ _ Hpq). lia.
    + intros q' s'. rewrite Hf2. apply yields_after with (([OVisit p c e] ++ ks) ++ [OResult p c RForward]); try done.
      intros ks' Hs. simpl. rewrite <-!app_assoc. specialize (Hse _ _ Hs). simpl in Hse. by rewrite <-app_assoc in Hse.
    + intros q' s'. rewrite Hf2. apply yields_after with (([OVisit p c e] ++ ks) ++ [OResult p c RForward]); try done.
      intros ks' Hs. simpl. rewrite <-!app_assoc. specialize (Hse _ _ Hs). simpl in Hse. by rewrite <-app_assoc in Hse.
  - apply wp_ret. eexists. split_and!; [exact Hm2| | |].
    + apply se_top; [done|]. destruct x as [c p]. by eapply ctx_of_None.
    + by left.
    + intros r' _ ?. done.
Qed.
End wp_react.
