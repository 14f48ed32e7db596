(** Event processing follows the grammar of Story.v: exception handling, dispatching, the event loop,
    initiate() and terminate(). *)
From stdpp Require Import relations.
From Verif Require Export WpReact.

Section wp_event.
Context {W : Type} (ch : chart) (U : user W).
Context (Hwf : wf_chart ch = true) (HU : user_ok ch U).
Notation S := (mst W acore).
Notation MM := (M S).
Notation alive := (alive ch).
Notation good := (good ch).
Notation tracks := (tracks (W:=W) ch).

(** ** The trace keeps telling which objects are alive *)
Lemma wp_tracks {A} (m : MM A) (Q : A → S → Prop) (E : exn → S → Prop) s :
  tracks s → to ch m s → wp m Q E s →
  wp m (λ a s', Q a s' ∧ tracks s') (λ y s', E y s' ∧ tracks s') s.
Proof.
  unfold wp, to, from. intros HT Hto. destruct (m s) as [[a|y|f|] s'] eqn:Em; try done;
    intros Hq; (split; [done|]); by eapply (tracks_steps ch Hwf).
Qed.

Lemma no_lives a tr : good [] a → knows ch tr a → occ a !! (None, 0) = None → ∀ x, ¬ lives tr x.
Proof.
  intros Hg HT Hn x Hx. apply (kn_lives _ _ _ HT) in Hx. destruct (good_empty ch Hwf _ Hg Hn) as (Ho & _ & _).
  unfold Abs.alive in Hx. rewrite Ho in Hx. by rewrite lookup_empty in Hx.
Qed.

Lemma end_plan_ok tr fe a : knows ch tr a → good [] a → end_plan ch tr fe (exits fe (all_gone ch a)).
Proof.
  intros HT Hg. pose proof (gd_wf _ _ _ Hg) as Hw. exists (all_gone ch a). split_and!; [|..|done].
  - intros y. rewrite <-(kn_lives _ _ _ HT). unfold all_gone. destruct (occ a !! (None, 0)) as [x|] eqn:Hx.
    + by destruct (leave_root ch Hwf _ _ _ Hw Hx) as (_ & _ & _ & _ & ?).
    + split; [by intros ?%elem_of_nil|]. intros Hy. exfalso. by apply (no_lives _ _ Hg HT Hx y), (kn_lives _ _ _ HT).
  - unfold all_gone. destruct (occ a !! (None, 0)) as [x|] eqn:Hx; [|constructor].
    destruct (leave_root ch Hwf _ _ _ Hw Hx) as (Hxa & _). by eapply sub_sorted.
Qed.

(** The machine has ended. *)
Lemma ended_ending (fe : bool) (s s' : S) tr : knows ch tr (core s) → good [] (core s) → ended ch fe s s' →
  ∃ ks, trace (en s') = trace (en s) ++ under (trig (en s)) ks ∧ ending ch tr fe ks.
Proof.
  intros HT Hg He. destruct (nd_trace _ _ _ _ He) as (T & Ht & Hl & HF).
  destruct (ext_kinds _ _ _ Hl HF) as (ks & -> & H1 & H2).
  exists (ks ++ [OReset]). split; [by rewrite Ht, under_app|]. exists ks. split; [done|].
  split; [done|]. rewrite H1. by apply end_plan_ok.
Qed.

(** ** Exception handling *)
Lemma complete_ok tr a : good [] a → knows ch tr a → complete_but ch tr (λ x, aunst a = Some x).
Proof.
  intros Hg HK z Hz Hl Hn. apply (kn_lives _ _ _ HK) in Hz. pose proof (gd_busy _ _ _ Hg z Hz) as Hb.
  pose proof (gd_wf _ _ _ Hg) as Hw. apply busy_true in Hb as [Hb|[Hb|[Hb|Hb]]].
  - destruct (kids ch a z.1) as [|w l] eqn:Ek; [done|]. exists w.
    assert (w ∈ kids ch a z.1) as Hin by (rewrite Ek; left).
    apply (elem_of_kids ch Hwf _ _ _ _ Hw) in Hin as [Hw1 Hw2]. split; [by apply (kn_lives _ _ _ HK)|done].
  - destruct (wa_ord _ _ _ Hw z Hb). congruence.
  - done.
  - by apply elem_of_nil in Hb.
Qed.
Lemma complete_none tr a : good [] a → knows ch tr a → aunst a = None → complete ch tr.
Proof. intros Hg HK Hu z Hz Hl _. apply (complete_ok tr a Hg HK z Hz Hl). by rewrite Hu. Qed.

Lemma without_inner_ok t a z k : wfa ch [] a → knows ch t a → without_inner ch t z k ↔ vacant ch a z k.
Proof.
  intros Hw HK. unfold without_inner, vacant. rewrite (kn_lives _ _ _ HK). split.
  - intros (H1 & H2 & H3). split_and!; [done|done|]. destruct (occ a !! (Some z.1, k)) as [w|] eqn:E; [|done]. exfalso.
    pose proof (wa_reg _ _ _ Hw _ _ E) as Hr. assert (alive a w) as Hwa by (unfold Abs.alive; by rewrite Hr).
    unfold region in Hr. injection Hr as Hp Hk. by apply (H3 w); [apply (kn_lives _ _ _ HK)|..].
  - intros (H1 & H2 & H3). split_and!; [done|done|]. intros w Hwl Hp Hk. apply (kn_lives _ _ _ HK) in Hwl.
    unfold Abs.alive, region in Hwl. rewrite Hp, Hk in Hwl. congruence.
Qed.
Lemma marked_ok t0 t a0 a u : wfa ch [] a0 → wfa ch [] a → knows ch t0 a0 → knows ch t a →
  marked ch a0 a → aunst a = Some u → outermost_unstable ch t0 t u.
Proof.
  intros Hw0 Hw HK0 HK Hm Hu. destruct (Hm u Hu) as [(k & Hk1 & Hk2) Hall]. split.
  - exists k. by rewrite (without_inner_ok t0 a0), (without_inner_ok t a).
  - intros z (j & Hj1 & Hj2). rewrite (without_inner_ok t0 a0) in Hj2 by done.
    rewrite (without_inner_ok t a) in Hj1 by done. by apply (Hall z j).
Qed.

Definition handles (y : exn) (cur : option aid) : MM rr :=
  match u_translate U y with None => throw y | Some xe => a_handle_exception ch U xe y cur end.

Record calm (s : S) : Prop := {
  cm_good : good [] (core s);
  cm_unst : aunst (core s) = None;
  cm_hist : hist_ok ch (en s);
  cm_full : full (en s) = true }.

(** The machine was in order, at [t0]. *)
Definition was (t0 : list obs) (a0 : acore) : Prop := wfa ch [] a0 ∧ knows ch t0 a0.

Lemma wp_handled t0 a0 y cur (st : Prop) (s : S) : was t0 a0 →
  good [] (core s) → hist_ok ch (en s) → tracks s → full (en s) = true →
  (st ∧ aunst (core s) = None ∧ (∃ x, cur = Some x ∧ alive (core s) x)) ∨ (¬ st ∧ halted (core s) ∧ (trig (en s) = None ∨ ch_relax ch = None → marked ch a0 (core s))) →
  wp (handles y cur)
    (λ r s', ∃ T, trace (en s') = trace (en s) ++ T ∧
       handled ch U t0 (trace (en s)) (trig (en s)) cur st y T (Done r) ∧
       calm s' ∧ trig (en s') = trig (en s) ∧ r = RDiscard)
    (λ y' s', ∃ T, trace (en s') = trace (en s) ++ T ∧
       handled ch U t0 (trace (en s)) (trig (en s)) cur st y T (Threw y') ∧
       good [] (core s') ∧ trig (en s') = trig (en s)) s.
Proof.
  intros [Hw0 HK0] Hg Hh HT Hf Hst. pose proof (tracks_knows ch _ HT) as HK. unfold handles.
  assert (u_translate U y = None ∨ (∀ x, ¬ lives (trace (en s)) x) → ∃ T, trace (en s) = trace (en s) ++ T ∧
       handled ch U t0 (trace (en s)) (trig (en s)) cur st y T (Threw y) ∧
       good [] (core s) ∧ trig (en s) = trig (en s)) as Hnone.
  { intros Hn. exists []. rewrite app_nil_r. split_and!; try done. by apply ha_none. }
  destruct (u_translate U y) as [xe|] eqn:Htr; [|apply wp_throw, Hnone; by left].
  unfold a_handle_exception. apply wp_bind, wp_gets. unfold id, a_terminated.
  case_bool_decide as Hroot; [apply wp_throw, Hnone; right; by eapply no_lives|].
  assert (∃ x, (match aunst (core s) with None => cur | Some u => Some u end) = Some x ∧ alive (core s) x ∧
    starts_at ch t0 (trace (en s)) (trig (en s)) cur st x ∧ unst_in ch (core s) x ∧
    (aunst (core s) = None ↔ st)) as (x & -> & Hx & Hx1 & Hx3 & Hx4).
  { destruct Hst as [(Hs & Hu & x & -> & Hx)|(Hs & [Hu|Hu] & Hmk)]; [..|done].
    - exists x. rewrite Hu. split_and!; try done; [|by left]. split; [|done]. intros _. split; [done|].
      by eapply complete_none.
    - destruct (aunst (core s)) as [u|] eqn:Hau; [|done]. exists u. split_and!; try done.
      + by apply (wa_unst _ _ _ (gd_wf _ _ _ Hg)).
      + split; [done|]. intros _. split_and!; [by apply (gd_unst _ _ _ Hg)| |].
        * intros z Hz Hzl Hne. apply (complete_ok _ _ Hg HK z Hz Hzl). congruence.
        * intros Hrel. eapply marked_ok; [exact Hw0|exact (gd_wf _ _ _ Hg)|done|done|by apply Hmk|done].
      + right. exists u. split; [done|by left]. }
  clear Hnone. apply wp_bind.
  set (b := trig (en s)). set (t := trace (en s)) in *.
  set (s2 := MSt (core s) (set_full false (log (OHandle x.2 xe) (set_trig (Some xe) (en s))))).
  assert (ready ch t x s2) as Hr. { by split. }
  assert (lives t x) as Hxl by by apply (kn_lives _ _ _ HK).
  apply wp_on_exn. unfold a_with_trig. apply wp_bind, wp_gets, wp_bind, wp_on_env, wp_finally.
  apply wp_bind, wp_emit, wp_bind, wp_on_env. cbn [core en]. fold s2. fold b.
  apply wp_bind. unfold a_react.
  assert (x.1 < depth_fuel ch) as Hlt.
  { pose proof (gd_decl _ _ _ Hg x Hx). unfold depth_fuel. lia. }
  assert (tracks s2) as HT2.
  { eapply (tracks_step ch Hwf); [|apply (st_full _ (MSt (core s) (log (OHandle x.2 xe) (set_trig (Some xe) (en s)))))].
    eapply (tracks_step ch Hwf); [|by apply (st_mark _ (MSt (core s) (set_trig (Some xe) (en s))) (OHandle x.2 xe))].
    eapply (tracks_step ch Hwf); [exact HT|apply st_trig]. }
  eapply wp_mono; [apply wp_tracks; [exact HT2|by apply to_react_impl|by apply (wp_react_impl ch U Hwf HU t)]|..];
    change (full (en s2)) with false.
  - intros r s3 [(ks & [M1 M2 M3 M4 M5] & Hse & Hcf & Hd) HT3]. cbn [en s2] in M3, M5.
    change (trig (set_full false (log (OHandle x.2 xe) (set_trig (Some xe) (en s))))) with (Some xe) in M3, M5.
    change (trace (set_full false (log (OHandle x.2 xe) (set_trig (Some xe) (en s))))) with (t ++ [Obs (Some xe) (OHandle x.2 xe)]) in M5.
    cbn [core s2] in Hcf.
    apply wp_bind, wp_on_env, wp_bind, wp_gets. cbn [core en].
    destruct (bool_decide (r = RDiscard) && bool_decide (aunst (core s3) = None)) eqn:Hb.
    + apply andb_true_iff in Hb as [->%bool_decide_eq_true Hu3%bool_decide_eq_true].
      apply wp_ret, wp_on_env, wp_bind, wp_emit, wp_ret. cbn [core en].
      exists (under (Some xe) (OHandle x.2 xe :: ks) ++ under b [OHandled]). split_and!.
      * cbn. rewrite M5. unfold under. cbn. by rewrite <-!app_assoc.
      * apply (ha_done _ _ _ _ _ _ _ _ xe x ks); try done.
        -- destruct Hcf as [[[_ _ Hsu _] _]|[_ ?]]; [left|by right]. apply Hx4. congruence.
        -- eapply (complete_none _ (core s3)); [done| |done]. pose proof (tracks_knows ch _ HT3) as HK3.
           rewrite M5, <-app_assoc in HK3. exact HK3.
      * by split.
      * done.
      * done.
    + apply wp_throw, wp_on_env, wp_emit. cbn [core en].
      exists (under (Some xe) (OHandle x.2 xe :: ks) ++ under b [OUnhandled]). split_and!; [..|done|done].
      * cbn. rewrite M5. unfold under. cbn. by rewrite <-!app_assoc.
      * apply (ha_rethrow _ _ _ _ _ _ _ _ xe x ks r); try done. apply andb_false_iff in Hb as [Hb%bool_decide_eq_false|Hb%bool_decide_eq_false]; [by left|].
        right. destruct Hcf as [[[_ _ Hsu _] Hn]|[? _]]; [|done]. split; [|done]. rewrite <-Hx4. congruence.
  - intros y' s3 [(ks & [M1 M2 M3 M4 M5] & Hse & Hcf & Hd) _]. cbn [en s2] in M3, M5.
    change (trig (set_full false (log (OHandle x.2 xe) (set_trig (Some xe) (en s))))) with (Some xe) in M3, M5.
    change (trace (set_full false (log (OHandle x.2 xe) (set_trig (Some xe) (en s))))) with (t ++ [Obs (Some xe) (OHandle x.2 xe)]) in M5.
    apply wp_on_env, wp_emit. cbn [core en].
    exists (under (Some xe) (OHandle x.2 xe :: ks) ++ under b [OUnhandled]). split_and!; [..|done|done].
    + cbn. rewrite M5. unfold under. cbn. by rewrite <-!app_assoc.
    + by apply (ha_throw _ _ _ _ _ _ _ _ xe x ks y').
Qed.
Definition handler (y : exn) (cur : option aid) : MM rr := emit (OCatch y) ;! handles y cur.
Lemma wp_handler t0 a0 y cur (st : Prop) (s : S) : was t0 a0 →
  good [] (core s) → hist_ok ch (en s) → tracks s → full (en s) = true →
  (st ∧ aunst (core s) = None ∧ (∃ x, cur = Some x ∧ alive (core s) x)) ∨ (¬ st ∧ halted (core s) ∧ (trig (en s) = None ∨ ch_relax ch = None → marked ch a0 (core s))) →
  wp (handler y cur)
    (λ r s', ∃ T, trace (en s') = trace (en s) ++ T ∧
       handling ch U t0 (trace (en s)) (trig (en s)) cur st y T (Done r) ∧
       calm s' ∧ trig (en s') = trig (en s) ∧ r = RDiscard)
    (λ y' s', ∃ T, trace (en s') = trace (en s) ++ T ∧
       handling ch U t0 (trace (en s)) (trig (en s)) cur st y T (Threw y') ∧
       good [] (core s') ∧ trig (en s') = trig (en s)) s.
Proof.
  intros H0 Hg Hh HT Hf Hst. unfold handler. apply wp_bind, wp_emit.
  assert (tracks (MSt (core s) (log (OCatch y) (en s)))) as HT'.
  { eapply (tracks_step ch Hwf); [exact HT|by apply st_mark]. }
  eapply wp_mono; [by apply (wp_handled t0 a0 y cur st)|..].
  - intros r s' (T & E & H1 & H2). exists (under (trig (en s)) [OCatch y] ++ T). split_and!; [|by apply ha_catch|apply H2..].
    rewrite E. cbn. by rewrite <-app_assoc.
  - intros r s' (T & E & H1 & H2). exists (under (trig (en s)) [OCatch y] ++ T). split_and!; [|by apply ha_catch|apply H2..].
    rewrite E. cbn. by rewrite <-app_assoc.
Qed.

(** ** Dispatching *)
Lemma wp_dispatch n i e (s : S) :
  calm s → tracks s → trig (en s) = Some e → i + n = length (ord (core s)) →
  wp (a_dispatch ch U n i e)
    (λ r s', ∃ T, trace (en s') = trace (en s) ++ T ∧
       dispatch ch U e (trace (en s)) (map fst (drop i (ord (core s)))) T (Done r) ∧
       calm s' ∧ trig (en s') = Some e)
    (λ y s', ∃ T, trace (en s') = trace (en s) ++ T ∧
       dispatch ch U e (trace (en s)) (map fst (drop i (ord (core s)))) T (Threw y) ∧
       good [] (core s') ∧ trig (en s') = Some e) s.
Proof.
  revert i s. induction n as [|n IH]; intros i s Hc HT Ht Hi; cbn [a_dispatch]; apply wp_bind, wp_gets.
  - rewrite bool_decide_true by lia. apply wp_ret. exists []. rewrite app_nil_r. split_and!; try done.
    rewrite drop_ge by lia. constructor.
  - rewrite bool_decide_false by lia. destruct (ord (core s) !! i) as [x|] eqn:Hx.
    2:{ apply lookup_ge_None in Hx. lia. }
    rewrite (drop_S _ _ _ Hx). cbn [map].
    pose proof Hc as [Hg Hu Hh Hf]. pose proof (tracks_knows ch _ HT) as HK.
    destruct (wa_ord _ _ _ (gd_wf _ _ _ Hg) x) as [Hxa Hxl]. { by eapply elem_of_list_lookup_2. }
    assert (lives (trace (en s)) x) as Hxlv by by apply (kn_lives _ _ _ HK).
    apply wp_bind. unfold a_translated. apply wp_catching. unfold a_react.
    assert (x.1 < depth_fuel ch) as Hlt.
    { pose proof (gd_decl _ _ _ Hg x Hxa). unfold depth_fuel. lia. }
    eapply wp_mono; [apply wp_tracks; [done|apply to_react_impl; done|]|..].
    + apply (wp_react_impl ch U Hwf HU (trace (en s))); [|done]. split; try done. by left.
    + rewrite Hf. intros r s1 [(ks & Hm & Hse & Hcf & Hd) HT1].
      pose proof Hm as [M1 M2 M3 M4 M5]. rewrite Ht in M3, M5. rewrite Hf in M4.
      assert (calm s1) as Hc1.
      { split; try done. destruct Hcf as [[[_ _ Hsu _] _]|[? _]]; [congruence|done]. }
      destruct (decide (r = RForward)) as [->|Hne].
      * assert (¬ moved ks) as Hn by (intros Hmv; by specialize (Hd _ eq_refl Hmv)).
        destruct (config_keeps _ _ _ Hcf Hn) as [Ho Hor _ _].
        eapply wp_mono; [apply IH; try done; rewrite Hor; lia|..].
        -- intros r s2 (T & E2 & Hdi & Hc2 & Ht2). rewrite M5 in E2, Hdi. rewrite Hor in Hdi.
           exists (under (Some e) ks ++ T). split_and!; try done; [by rewrite app_assoc|]. by apply di_next.
        -- intros r s2 (T & E2 & Hdi & Hc2 & Ht2). rewrite M5 in E2, Hdi. rewrite Hor in Hdi.
           exists (under (Some e) ks ++ T). split_and!; try done; [by rewrite app_assoc|]. by apply di_next.
      * assert (wp (ret r) (λ r s', ∃ T, trace (en s') = trace (en s) ++ T ∧
           dispatch ch U e (trace (en s)) (x.1 :: map fst (drop (Datatypes.S i) (ord (core s)))) T (Done r) ∧
           calm s' ∧ trig (en s') = Some e)
          (λ y s', ∃ T, trace (en s') = trace (en s) ++ T ∧
           dispatch ch U e (trace (en s)) (x.1 :: map fst (drop (Datatypes.S i) (ord (core s)))) T (Threw y) ∧
           good [] (core s') ∧ trig (en s') = Some e) s1) as Hw.
        { apply wp_ret. exists (under (Some e) ks). split_and!; try done. by apply di_stop. }
        by destruct r.
    + rewrite Hf. intros y s1 [(ks & Hm & Hse & Hcf & _) HT1].
      pose proof Hm as [M1 M2 M3 M4 M5]. rewrite Ht in M3, M5. rewrite Hf in M4.
      eapply wp_mono; [apply (wp_handler (trace (en s)) (core s) y (Some x) (¬ moved ks)); try done|..].
      * split; [exact (gd_wf _ _ _ Hg)|done].
      * destruct Hcf as [[[Ho _ Hsu _] Hn]|[Hha Hmv]]; [left|right; destruct Hha as [Hh1 Hh2]; split_and!; [tauto|done|]; intros [Hn|Hr]; [congruence|auto]].
        split_and!; [done|congruence|]. exists x. split; [done|]. unfold Abs.alive. by rewrite Ho.
      * intros r s2 (T & E2 & Hha & Hc2 & Ht2 & ->). rewrite M5, M3 in Hha. rewrite M5 in E2.
        apply wp_ret. exists (under (Some e) ks ++ T). split_and!; [by rewrite app_assoc| |done|congruence].
        by eapply di_throw.
      * intros y' s2 (T & E2 & Hha & Hg2 & Ht2). rewrite M5, M3 in Hha. rewrite M5 in E2.
        exists (under (Some e) ks ++ T). split_and!; [by rewrite app_assoc| |done|congruence].
        by eapply di_throw.
Qed.

Lemma innermost_ok (s : S) : good [] (core s) → tracks s → innermost ch (trace (en s)) (map fst (ord (core s))).
Proof.
  intros Hg HT. pose proof (tracks_knows ch _ HT) as HK. pose proof (gd_wf _ _ _ Hg) as Hw. split.
  - apply NoDup_fmap_2_strong; [|apply (wa_dup _ _ _ Hw)].
    intros x y Hx Hy Heq. apply (wa_ord _ _ _ Hw) in Hx as [Hx _], Hy as [Hy _].
    by eapply (alive_unique ch).
  - intros c. rewrite elem_of_list_fmap. split.
    + intros (x & -> & Hx). destruct (wa_ord _ _ _ Hw x Hx) as [Hxa Hl]. split; [done|].
      exists x.2. apply (kn_lives _ _ _ HK). by destruct x.
    + intros [Hl [p Hp]]. apply (kn_lives _ _ _ HK) in Hp. exists (c, p). split; [done|].
      destruct (good_leaf ch _ _ _ Hg Hp Hl) as [?|?%elem_of_nil]; done.
Qed.

(** ** Between two calls, and between two events *)
Record stable (s : S) : Prop := {
  sb_calm : calm s;
  sb_trig : trig (en s) = None;
  sb_tracks : tracks s }.

Lemma ended_calm fe (s s' : S) : ended ch fe s s' → calm s'.
Proof.
  intros [N1 N2 N3 N4 N5 N6 N7 N8 N9 N10 N11]. split; try done; [apply N1|]. by apply hist_ok_empty.
Qed.


Lemma wp_guarded {A} (m : MM A) (Q : A → S → Prop) (E E' : exn → S → Prop) s :
  wp m Q E' s →
  (∀ y s1, E' y s1 → good [] (core s1) ∧ tracks s1 ∧ ∀ ks s',
    trace (en s') = trace (en s1) ++ under (trig (en s1)) ks → ending ch (trace (en s1)) false ks →
    calm s' → trig (en s') = trig (en s1) → tracks s' → empty_core (core s') → E y s') →
  wp (a_guarded ch U m) Q E s.
Proof.
  intros Hm HE. unfold a_guarded. apply wp_on_exn. eapply wp_mono; [exact Hm|done|].
  intros y s1 H1. destruct (HE y s1 H1) as (Hg & HT & Hk). pose proof (tracks_knows ch _ HT) as HK.
  eapply wp_mono; [apply wp_tracks; [done|by apply to_terminate_machine|]|..].
  - by apply (wp_terminate_machine ch U Hwf HU).
  - intros [] s2 [He HT2]. destruct (ended_ending _ _ _ _ HK Hg He) as (ks & Ht & Hend).
    eapply Hk; try done; [by eapply ended_calm|by apply He|by apply He].
  - by intros y' s2 [[? _] _].
Qed.

Lemma tracks_mark (s : S) k : mark k = true → mark_ok ch (core s) k → tracks s →
  tracks (MSt (core s) (log k (en s))).
Proof. intros H1 H2 HT. eapply (tracks_step ch Hwf); [done|]. by apply st_mark. Qed.
Lemma tracks_trig (s : S) b : tracks s → tracks (MSt (core s) (set_trig b (en s))).
Proof. intros HT. eapply (tracks_step ch Hwf); [done|]. apply st_trig. Qed.

(** What is known after a call of send_event. *)
Definition sent (s : S) (P : list obs → list obs → outcome → Prop) (o : outcome) (s' : S) : Prop :=
  ∃ T, trace (en s') = trace (en s) ++ T ∧ P (trace (en s)) T o ∧ stable s'.

Lemma wp_send_event e (s : S) : stable s →
  wp (a_send_event ch U e)
    (λ r s', sent s (λ t, one_event ch U t e) (Done r) s')
    (λ y s', sent s (λ t, one_event ch U t e) (Threw y) s') s.
Proof.
  intros [Hc Ht HT]. unfold a_send_event. apply wp_finally. unfold a_with_trig.
  apply wp_bind, wp_gets, wp_bind, wp_on_env, wp_finally, wp_bind, wp_gets, wp_bind, wp_emit.
  rewrite Ht. cbn [core en]. unfold abs_leaves. set (ls := map fst (ord (core s))).
  set (s1 := MSt (core s) (log (ODispatch e ls) (set_trig (Some e) (en s)))).
  assert (tracks s1) as HT1.
  { apply (tracks_mark (MSt (core s) (set_trig (Some e) (en s)))); [done|done|]. by apply tracks_trig. }
  assert (calm s1) as Hc1 by (destruct Hc; by split).
  set (t := trace (en s)). assert (trace (en s1) = t ++ under (Some e) [ODispatch e ls]) as Ht1 by done.
  assert (innermost ch t ls) as Hin. { apply innermost_ok; [apply Hc|done]. }
  assert (∀ s2 T, trace (en s2) = trace (en s1) ++ T → tracks s2 → calm s2 →
    trace (en (MSt (core s2) (log ODone (set_trig None (en s2))))) =
      t ++ (under (Some e) [ODispatch e ls] ++ T ++ under None [ODone]) ∧
    stable (MSt (core s2) (log ODone (set_trig None (en s2))))) as Hdone.
  { intros s2 T E2 HT2 Hc2. split.
    - cbn. rewrite E2, Ht1. by rewrite <-!app_assoc.
    - split; [destruct Hc2; by split|done|].
      apply (tracks_mark (MSt (core s2) (set_trig None (en s2)))); [done|done|]. by apply tracks_trig. }
  apply wp_bind. eapply (wp_guarded _ _ _ (λ y s2, (∃ T, trace (en s2) = trace (en s1) ++ T ∧
       dispatch ch U e (trace (en s1)) ls T (Threw y) ∧
       good [] (core s2) ∧ trig (en s2) = Some e) ∧ tracks s2)).
  - apply wp_bind, wp_gets, wp_bind, wp_assert; [apply Hc|].
    eapply wp_mono; [apply wp_tracks; [done|by apply to_dispatch|]; apply wp_dispatch; try done; lia|..].
    2:{ intros y s2. rewrite drop_0. tauto. }
    rewrite drop_0. intros r s2 [(T & E2 & Hd & Hc2 & Ht2) HT2]. rewrite Ht1 in Hd.
    destruct (decide (r = RForward)) as [->|Hne].
    + apply wp_bind, wp_emit, wp_bind.
      set (s3 := MSt (core s2) (log (OUnconsumed e) (en s2))).
      assert (tracks s3) as HT3 by by apply tracks_mark.
      assert (∀ ks y s4, moves_on ch s3 s4 ks → core s4 = core s3 → called ks y → tracks s4 →
        sent s (λ t, one_event ch U t e) (match y with None => Done RForward | Some y => Threw y end)
          (MSt (core s4) (log ODone (set_trig None (en s4))))) as Hun.
      { intros ks y s4 Hm Hc4 Hca HT4. destruct Hm as [M1 M2 M3 M4 M5].
        cbn [en s3] in M3, M4, M5. change (trig (log (OUnconsumed e) (en s2))) with (trig (en s2)) in M3, M5.
        change (full (log (OUnconsumed e) (en s2))) with (full (en s2)) in M4.
        change (trace (log (OUnconsumed e) (en s2))) with (trace (en s2) ++ [Obs (trig (en s2)) (OUnconsumed e)]) in M5.
        rewrite Ht2 in M3, M5. rewrite E2 in M5.
        destruct (Hdone s4 (T ++ under (Some e) (OUnconsumed e :: ks))) as [D1 D2].
        - rewrite M5. unfold under. cbn. by rewrite <-!app_assoc.
        - done.
        - destruct Hc2 as [C1 C2 C3 C4]. split; try done; [by rewrite Hc4|congruence].
        - eexists. split_and!; [exact D1| |done]. rewrite <-app_assoc. by apply oe_unconsumed. }
      eapply wp_mono; [apply wp_tracks; [done|by apply to_ucall_x|]|..].
      * apply (wp_called ch); [apply (ok_unconsumed _ _ HU)|apply Hc2|apply Hc2].
      * intros [] s4 [(ks & Hm & Hc4 & Hca & _) HT4]. apply wp_ret, wp_on_env, wp_emit.
        exact (Hun ks None s4 Hm Hc4 Hca HT4).
      * intros y s4 [(ks & Hm & Hc4 & Hca & _) HT4]. apply wp_on_env, wp_emit.
        exact (Hun ks (Some y) s4 Hm Hc4 Hca HT4).
    + assert (wp (ret r) (λ r s', sent s (λ t, one_event ch U t e) (Done r)
          (MSt (core s') (log ODone (set_trig None (en s')))))
        (λ y s', sent s (λ t, one_event ch U t e) (Threw y)
          (MSt (core s') (log ODone (set_trig None (en s'))))) s2) as Hw.
      { apply wp_ret. destruct (Hdone s2 T E2 HT2 Hc2) as [D1 D2]. eexists. split_and!; [exact D1| |done].
        by apply oe_consumed. }
      destruct r; [done|..]; (eapply wp_mono; [exact Hw|..]); intros; by apply wp_on_env, wp_emit.
  - intros y s2 [(T & E2 & Hd & Hg2 & Ht2) HT2]. split_and!; [done|done|].
    intros ks s3 E3 Hend Hc3 Ht3 HT3 _. rewrite Ht2 in E3. rewrite Ht1 in Hd. rewrite E2, Ht1 in Hend.
    apply wp_on_env, wp_emit. destruct (Hdone s3 (T ++ under (Some e) ks)) as [D1 D2]; [|done|done|].
    { rewrite E3, E2. by rewrite <-app_assoc. }
    eexists. split_and!; [exact D1| |done]. rewrite <-app_assoc. eapply oe_escaped; [done|done|].
    by rewrite <-app_assoc in Hend.
Qed.

(** ** The event loop *)
(** As [wp], for computations that may run on. *)
Definition wpd {A} (m : MM A) (Q : A → S → Prop) (E : exn → S → Prop) (D : S → Prop) (s : S) : Prop :=
  match m s with
  | (Ret a, s') => Q a s'
  | (Exn y, s') => E y s'
  | (Div, s') => D s'
  | (Fault _, _) => False
  end.
Lemma wpd_wp {A} (m : MM A) Q E D s : wp m Q E s → wpd m Q E D s.
Proof. unfold wp, wpd. by destruct (m s) as [[] s']. Qed.
Lemma wpd_bind {A B} (m : MM A) (k : A → MM B) Q E D s :
  wp m (λ a s', wpd (k a) Q E D s') E s → wpd (bind m k) Q E D s.
Proof. unfold wp, wpd, bind. by destruct (m s) as [[] s']. Qed.
Lemma wpd_mono {A} (m : MM A) (Q Q' : A → S → Prop) (E E' : exn → S → Prop) (D D' : S → Prop) s :
  wpd m Q E D s → (∀ a s', Q a s' → Q' a s') → (∀ y s', E y s' → E' y s') → (∀ s', D s' → D' s') →
  wpd m Q' E' D' s.
Proof. unfold wpd. destruct (m s) as [[] s']; naive_solver. Qed.

(** A piece of the trace that follows the grammar [P], from a stable machine to a stable machine. *)
Definition tells (s : S) (P : list obs → list obs → ending_of → Prop) (o : ending_of) (s' : S) : Prop :=
  ∃ T, trace (en s') = trace (en s) ++ T ∧ P (trace (en s)) T o ∧ stable s'.

Lemma wp_defer_if r e (s : S) : stable s →
  wp (a_defer_if U r e) (λ _ s', trace (en s') = trace (en s) ++ under None (defers e (Done r)) ∧ stable s')
    (λ y s', r = RDefer ∧ trace (en s') = trace (en s) ++ under None (refused e y) ∧ stable s') s.
Proof.
  intros Hs. pose proof Hs as [Hc Ht HT]. destruct (decide (r = RDefer)) as [->|Hne].
  - cbn [a_defer_if]. apply wp_bind. pose proof (alloc_usteps U (ADefer e) s) as Ha. pose proof (to_alloc ch U (ADefer e) s eq_refl) as Hto.
    unfold to, from in Hto. unfold wp at 1.
    destruct (alloc U (ADefer e) s) as [[[]|y| |] s1]; try done; destruct Ha as (Hc1 & w & He1);
      apply (tracks_steps ch Hwf _ _ HT) in Hto.
    + apply wp_on_env. cbn. rewrite He1. cbn. rewrite Ht. split; [done|]. split; [|done|].
      * destruct Hc. split; cbn; rewrite ?Hc1; done.
      * destruct s1 as [a1 v1]. simpl in Hc1, He1. subst. exact (tracks_step ch Hwf _ _ Hto (st_defer _ _ e)).
    + destruct s1 as [a1 v1]. simpl in Hc1, He1. subst. cbn. rewrite Ht, <-app_assoc. split_and!; [done|done|].
      destruct Hc. by split.
  - assert (wp (ret tt) (λ _ s', trace (en s') = trace (en s) ++ under None (defers e (Done r)) ∧ stable s')
      (λ y s', r = RDefer ∧ trace (en s') = trace (en s) ++ under None (refused e y) ∧ stable s') s) as Hw.
    { apply wp_ret. split; [|done]. destruct r; [..|done]; cbn; by rewrite app_nil_r. }
    by destruct r.
Qed.

Lemma wpd_queued n (s : S) : stable s →
  wpd (a_process_queued ch U n)
    (λ _ s', tells s (event_loop ch U n) Returned s')
    (λ y s', tells s (event_loop ch U n) (Raised y) s')
    (λ s', tells s (event_loop ch U n) Running s') s.
Proof.
  revert s. induction n as [|n IH]; intros s Hs; cbn [a_process_queued]; apply wpd_bind, wp_gets.
  - destruct (queue (en s)) as [|e q].
    + apply wpd_wp, wp_ret. exists []. rewrite app_nil_r. split_and!; [done|constructor|done].
    + unfold wpd, diverge. exists []. rewrite app_nil_r. split_and!; [done|constructor|done].
  - destruct (queue (en s)) as [|e q] eqn:Hq.
    { apply wpd_wp, wp_ret. exists []. rewrite app_nil_r. split_and!; [done|constructor|done]. }
    apply wpd_bind, wp_on_env. set (s1 := MSt (core s) (set_queue q (log (OTake e) (en s)))).
    pose proof Hs as [Hc Ht HT].
    assert (stable s1) as Hs1.
    { split; [destruct Hc; by split|done|]. eapply (tracks_step ch Hwf); [exact HT|]. by apply st_take. }
    assert (trace (en s1) = trace (en s) ++ under None [OTake e]) as E1. { cbn. by rewrite Ht. }
    apply wpd_bind. eapply wp_mono; [by apply wp_send_event|..].
    + intros r s2 (T & E2 & Ho & Hs2). apply wpd_bind. rewrite E1 in E2, Ho. eapply wp_mono; [by apply wp_defer_if| |].
      2:{ intros y s3 (-> & E3 & Hs3). rewrite E2 in E3. eexists. split_and!; [|by apply el_refused|done].
          by rewrite E3, <-!app_assoc. }
      intros [] s3 [E3 Hs3]. rewrite E2 in E3.
      assert (∀ o s4, tells s3 (event_loop ch U n) o s4 → tells s (event_loop ch U (Datatypes.S n)) o s4) as Hcomb.
      { intros o s4 (T' & E4 & Hl & Hs4). rewrite E3 in E4, Hl. repeat rewrite <-app_assoc in E4. repeat rewrite <-app_assoc in Hl.
        eexists. split_and!; [exact E4|by apply el_next|done]. }
      eapply wpd_mono; [by apply IH|..]; intros; by apply Hcomb.
    + intros y s2 (T & E2 & Ho & Hs2). rewrite E1 in E2, Ho. eexists. split_and!; [|by apply el_throw|done].
      by rewrite E2, <-app_assoc.
Qed.

Lemma wpd_process_event n e (s : S) : stable s →
  wpd (a_process_event ch U n e)
    (λ _ s', tells s (λ t, processing ch U n t e) Returned s')
    (λ y s', tells s (λ t, processing ch U n t e) (Raised y) s')
    (λ s', tells s (λ t, processing ch U n t e) Running s') s.
Proof.
  intros Hs. pose proof Hs as [Hc Ht HT]. unfold a_process_event.
  apply wpd_bind, wp_emit. set (s1 := MSt (core s) (log (OProcess e) (en s))).
  assert (stable s1) as Hs1. { split; [destruct Hc; by split|done|]. by apply tracks_mark. }
  assert (trace (en s1) = trace (en s) ++ under None [OProcess e]) as E1. { cbn. by rewrite Ht. }
  apply wpd_bind. eapply wp_mono; [by apply wp_send_event|..].
  - intros r s2 (T & E2 & Ho & Hs2). apply wpd_bind. rewrite E1 in E2, Ho. eapply wp_mono; [by apply wp_defer_if| |].
    2:{ intros y s3 (-> & E3 & Hs3). rewrite E2 in E3. eexists. split_and!; [|by apply pr_refused|done].
        by rewrite E3, <-!app_assoc. }
    intros [] s3 [E3 Hs3]. rewrite E2 in E3.
    assert (∀ o s4, tells s3 (event_loop ch U n) o s4 → tells s (λ t, processing ch U n t e) o s4) as Hcomb.
    { intros o s4 (T' & E4 & Hl & Hs4). rewrite E3 in E4, Hl. repeat rewrite <-app_assoc in E4. repeat rewrite <-app_assoc in Hl.
        eexists. split_and!; [exact E4|by apply pr_next|done]. }
    eapply wpd_mono; [by apply wpd_queued|..]; intros; by apply Hcomb.
  - intros y s2 (T & E2 & Ho & Hs2). rewrite E1 in E2, Ho. eexists. split_and!; [|by apply pr_throw|done].
    by rewrite E2, <-app_assoc.
Qed.

(** ** terminate() and initiate() *)
Lemma stable_trig (s : S) : stable s → MSt (core s) (set_trig None (en s)) = s.
Proof. intros [_ Ht _]. destruct s as [a []]. simpl in *. by subst. Qed.

(** Something done under the exception translator, with a guard. *)
Lemma wp_under_translator (m : MM rr) (P : list okind → outcome → Prop) (s : S) :
  stable s → to ch m s →
  wp m
    (λ r s', ∃ ks, trace (en s') = trace (en s) ++ under None ks ∧ P ks (Done r) ∧ calm s' ∧ trig (en s') = None)
    (λ y s', ∃ ks, trace (en s') = trace (en s) ++ under None ks ∧ P ks (Threw y) ∧ good [] (core s') ∧
       hist_ok ch (en s') ∧ full (en s') = true ∧ trig (en s') = None ∧ halted (core s') ∧ marked ch (core s) (core s')) s →
  wp (a_with_trig None (a_guarded ch U (a_translated ch U m None ;! ret tt)))
    (λ _ s', tells s (λ t, translated ch U t P) Returned s')
    (λ y s', tells s (λ t, translated ch U t P) (Raised y) s') s.
Proof.
  intros Hs Hto Hm. pose proof Hs as [Hc Ht HT]. unfold a_with_trig.
  apply wp_bind, wp_gets, wp_bind, wp_on_env, wp_finally. rewrite Ht, (stable_trig _ Hs).
  assert (∀ s1, stable s1 → stable (MSt (core s1) (set_trig None (en s1)))) as Hsn.
  { intros s1 Hs1. by rewrite (stable_trig _ Hs1). }
  eapply (wp_guarded _ _ _ (λ y' s2, (∃ ks y T, trace (en s2) = trace (en s) ++ under None ks ++ T ∧
       P ks (Threw y) ∧ handling ch U (trace (en s)) (trace (en s) ++ under None ks) None None False y T (Threw y') ∧
       good [] (core s2) ∧ trig (en s2) = None) ∧ tracks s2)).
  - apply wp_bind. unfold a_translated. apply wp_catching.
    eapply wp_mono; [apply wp_tracks; [done|done|exact Hm]|..].
    + intros r s1 [(ks & E1 & HP & Hc1 & Ht1) HT1]. apply wp_ret, wp_on_env.
      exists (under None ks). split_and!; [done|by eapply tr_done|]. apply Hsn. by split.
    + intros y s1 [(ks & E1 & HP & Hg1 & Hh1 & Hf1 & Ht1 & Hha & Hmk) HT1].
      change (emit (OCatch y) ;! match u_translate U y with Some xe => a_handle_exception ch U xe y None | None => throw y end)
        with (handler y None).
      eapply wp_mono; [apply wp_tracks; [done| |apply (wp_handler (trace (en s)) (core s) y None False); try done; [|right; tauto]]|..].
      * unfold handler. apply to_bind0; [by apply to_mark|]. intros _ ?. unfold handles. destruct (u_translate U y); [by apply to_handle|apply to_throw].
      * split; [exact (gd_wf _ _ _ (cm_good _ Hc))|by apply tracks_knows].
      * rewrite Ht1. intros r s2 [(T & E2 & Hh2 & Hc2 & Ht2 & _) HT2]. apply wp_ret, wp_on_env.
        exists (under None ks ++ T). split_and!.
        -- cbn. by rewrite E2, E1, app_assoc.
        -- rewrite E1 in Hh2. by eapply tr_handled.
        -- apply Hsn. by split.
      * rewrite Ht1. intros y' s2 [(T & E2 & Hh2 & Hg2 & Ht2) HT2]. split; [|done].
        rewrite E1 in Hh2. exists ks, y, T. split_and!; try done. by rewrite E2, E1, app_assoc.
  - intros y' s2 [(ks & y & T & E2 & HP & Hh2 & Hg2 & Ht2) HT2]. split_and!; try done.
    rewrite Ht2. intros ks' s3 E3 Hend Hc3 Ht3 HT3 _. apply wp_on_env.
    exists (under None ks ++ T ++ under None ks'). split_and!.
    + cbn. by rewrite E3, E2, <-!app_assoc.
    + rewrite E2 in Hend. by eapply tr_escaped.
    + apply Hsn. by split.
Qed.

Lemma wp_terminate (s : S) : stable s →
  wp (a_terminate ch U)
    (λ _ s', tells s (terminating ch U) Returned s')
    (λ y s', tells s (terminating ch U) (Raised y) s') s.
Proof.
  intros Hs. pose proof Hs as [Hc Ht HT]. pose proof (tracks_knows ch _ HT) as HK.
  unfold a_terminate, terminating.
  apply (wp_under_translator _ (terminates ch (trace (en s)))); [done|..].
  - apply to_bind0; [by apply to_terminate_machine|]. intros; apply to_ret.
  - apply wp_bind. eapply wp_mono; [apply (wp_terminate_machine ch U Hwf HU), Hc|..].
    + intros [] s1 He. apply wp_ret. destruct (ended_ending _ _ _ _ HK (cm_good _ Hc) He) as (ks & E1 & Hend).
      rewrite Ht in E1. exists ks. split_and!; [done|done|by eapply ended_calm|]. by rewrite (nd_trig _ _ _ _ He).
    + intros y s1 (_ & Hf1 & Hfa).
      assert (MSt (core s) (set_full true (en s)) = s) as Heq.
      { destruct Hc as [_ _ _ Hf]. clear -Hf. destruct s as [a []]. simpl in *. by subst. }
      rewrite Heq in Hfa. destruct (failed_moves_on ch Hwf _ _ _ _ _ Hfa (cm_hist _ Hc)) as (ks & [M1 M2 M3 M4 M5] & Hst & Hha & Hmk).
      rewrite Ht in M3, M5. exists ks. split_and!; try done; [|apply Hmk; split; [done|apply Hc]].
      destruct Hst as (k1 & g & k2 & rest & F1 & F2 & F3 & F4 & F5 & F6). exists k1, g, k2, rest. split_and!; try done.
      rewrite <-F4. apply end_plan_ok; [done|apply Hc].
Qed.

Lemma init_valid : valid ch [] (IState (ch_init ch)).
Proof.
  split; [|done]. unfold init_ok. simpl. rewrite andb_true_r. apply bool_decide_eq_true. by apply wf_init.
Qed.

Lemma wp_start (s : S) : stable s → occ (core s) !! (None, 0) = None →
  wp (a_with_trig None (a_guarded ch U
       (a_translated ch U (a_constructs ch U [] [] (IState (ch_init ch)) None ;! ret RDiscard) None ;! ret tt)))
    (λ _ s', tells s (λ t, translated ch U t (starts ch t)) Returned s')
    (λ y s', tells s (λ t, translated ch U t (starts ch t)) (Raised y) s') s.
Proof.
  intros Hs Hempty. pose proof Hs as [Hc Ht HT]. pose proof (tracks_knows ch _ HT) as HK.
  destruct (wf_init _ Hwf) as [Hi1 Hi2].
  assert (∀ x, ¬ lives (trace (en s)) x) as Hno by (apply (no_lives _ _ (cm_good _ Hc) HK); exact Hempty).
  assert (region ch (ch_init ch) = (None, 0)) as Hreg.
  { unfold region. by rewrite Hi2, (pos_top _ Hwf _ Hi2). }
  eapply wp_mono; [apply (wp_under_translator _ (starts ch (trace (en s)))); [done|..]|done|done].
  - apply to_bind0; [by apply to_construct|]. intros; apply to_ret.
  - apply wp_bind. eapply wp_mono; [apply (wp_constructs ch U Hwf HU); [apply init_valid|apply Hc|apply Hc|..]|..].
    + unfold ctx_ok, first. simpl. by rewrite Hi2.
    + unfold first. simpl. by rewrite Hreg.
    + split; [apply Hc|]. right. unfold first. simpl. by rewrite Hi2, (pos_top _ Hwf _ Hi2).
    + intros [] s1 [(cs & kb & Hb & Hc1 & He1) B2 B3 B4 B5 _ _]. apply wp_ret.
      destruct (evo_moves_on ch s s1 kb (init_plan ch (trace (en s))) B2 (cm_hist _ Hc) He1) as (ks & [M1 M2 M3 M4 M5] & Hks).
      { split; [exact Hno|]. exists (anxt (core s)), cs. split; [|done]. intros k y Hk _. by apply (kn_fresh _ _ _ HK). }
      rewrite Ht in M3, M5. exists ks. split_and!; try done. split; try done.
      * by rewrite Hc1.
      * rewrite M4. apply Hc.
    + intros y s1 Hfa. destruct (failed_moves_on ch Hwf _ _ _ _ _ Hfa (cm_hist _ Hc)) as (ks & [M1 M2 M3 M4 M5] & Hst & Hha & Hmk).
      rewrite Ht in M3, M5. exists ks. split_and!; try done; [|rewrite M4; apply Hc|].
      2:{ apply Hmk. split; [exact (wa_fresh _ _ _ (gd_wf _ _ _ (cm_good _ Hc)))|]. intros u Hu'. rewrite (cm_unst _ Hc) in Hu'. done. }
      destruct Hst as (k1 & g & k2 & rest & F1 & F2 & F3 & (cs & F4) & F5 & F6). exists k1, g, k2, rest. split_and!; try done.
      split; [exact Hno|]. exists (anxt (core s)), cs. split; [|done]. intros k z Hk _. by apply (kn_fresh _ _ _ HK).
Qed.

Lemma wpd_initiate n (s : S) : stable s →
  (∀ s', a_terminate ch U s = (Ret tt, s') → a_terminated s' = true) →
  wpd (a_initiate ch U n)
    (λ _ s', tells s (initiating ch U n) Returned s')
    (λ y s', tells s (initiating ch U n) (Raised y) s')
    (λ s', tells s (initiating ch U n) Running s') s.
Proof.
  intros Hs Hal. unfold a_initiate.
  assert (wp (a_terminate ch U)
    (λ _ s', tells s (terminating ch U) Returned s' ∧ occ (core s') !! (None, 0) = None)
    (λ y s', tells s (terminating ch U) (Raised y) s') s) as Hte.
  { pose proof (wp_terminate s Hs) as Hw. unfold wp in *. destruct (a_terminate ch U s) as [[[]|?|?|] s'] eqn:E; try done.
    split; [done|]. specialize (Hal s' eq_refl). unfold a_terminated in Hal. by apply bool_decide_eq_true in Hal. }
  apply wpd_bind. eapply wp_mono; [exact Hte|..].
  2:{ intros y s1 (T & E1 & H1 & Hs1). exists T. split_and!; try done. by constructor. }
  intros [] s1 [(T & E1 & H1 & Hs1) Hempty]. apply wpd_bind. eapply wp_mono; [by apply wp_start|..].
  - intros [] s2 (T' & E2 & H2 & Hs2). rewrite E1 in E2, H2.
    assert (∀ o s3, tells s2 (event_loop ch U n) o s3 → tells s (initiating ch U n) o s3) as Hcomb.
    { intros o s3 (T'' & E3 & H3 & Hs3). rewrite E2 in E3, H3. exists (T ++ T' ++ T''). split_and!; [|by apply in_run; [..|rewrite app_assoc]|done].
      by rewrite E3, <-!app_assoc. }
    eapply wpd_mono; [by apply wpd_queued|..]; intros; by apply Hcomb.
  - intros y s2 (T' & E2 & H2 & Hs2). rewrite E1 in E2, H2. exists (T ++ T'). split_and!; [|by apply in_start|done].
    by rewrite E2, <-app_assoc.
Qed.

(** ** Every call *)
Definition a_allowed (o : op) (s : S) : Prop :=
  match o with
  | OpInitiate _ => ∀ s', a_terminate ch U s = (Ret tt, s') → a_terminated s' = true
  | _ => True
  end.

Lemma wp_cmd x (s : S) : cmd_ok ch x = true → stable s →
  wp (do_cmd ch x)
    (λ _ s', trace (en s') = trace (en s) ++ under None
       [match x with CPost e => OPost e | CClearShallow c k => OClearS c k | CClearDeep c k => OClearD c k end] ∧
       stable s')
    (λ _ _, False) s.
Proof.
  intros Hok Hs. pose proof Hs as [Hc Ht HT].
  assert (wp (do_cmd ch x) (λ _ s', trace (en s') = trace (en s) ++ under None
       [match x with CPost e => OPost e | CClearShallow c k => OClearS c k | CClearDeep c k => OClearD c k end])
       (λ _ _, True) s) as Htr.
  { destruct x; cbn [do_cmd cmd_ok] in *; [|rewrite Hok..]; apply wp_on_env; cbn; by rewrite Ht. }
  eapply wp_mono; [apply wp_and; [exact Htr|apply wp_tracks; [exact HT|by apply to_cmd|by apply (wp_do_cmd ch)]]|..].
  - intros [] s' [E [[Hcr [Hu _ _]] HT']]. split; [done|]. destruct Hc as [C1 C2 C3 C4]. split; [split| |done].
    + by rewrite Hcr.
    + by rewrite Hcr.
    + by apply (evo_hist _ _ _ _ Hu).
    + by rewrite (evo_full _ _ _ _ Hu).
    + by rewrite (evo_trig _ _ _ _ Hu).
  - by intros y s' [_ [? _]].
Qed.

Lemma wpd_call o (s : S) : stable s → op_ok ch o = true → a_allowed o s →
  wpd (a_call ch U o)
    (λ _ s', tells s (story ch U o) Returned s')
    (λ y s', tells s (story ch U o) (Raised y) s')
    (λ s', tells s (story ch U o) Running s') s.
Proof.
  intros Hs Hok Hal. destruct o as [n| |n e|e|c k|c k]; cbn [a_call story] in *.
  - by apply wpd_initiate.
  - apply wpd_wp. by apply wp_terminate.
  - by apply wpd_process_event.
  - apply wpd_wp. eapply wp_mono; [by apply wp_cmd| |done]. intros [] s' [E Hs']. by eexists.
  - apply wpd_wp. eapply wp_mono; [by apply (wp_cmd (CClearShallow c k))| |done]. intros [] s' [E Hs']. by eexists.
  - apply wpd_wp. eapply wp_mono; [by apply (wp_cmd (CClearDeep c k))| |done]. intros [] s' [E Hs']. by eexists.
Qed.

Lemma stable_fresh w : stable (a_fresh w).
Proof.
  split; [|done|by apply tracks_fresh]. split; try done.
  apply (empty_core_good ch). intros p Hp. by apply elem_of_empty in Hp.
Qed.
End wp_event.
