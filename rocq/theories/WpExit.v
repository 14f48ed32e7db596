(** Giving up references and leaving states, without faults. *)
From Verif Require Export Vacant.
From stdpp Require Import sorting.

Section wp_exit.
Context {W : Type} (ch : chart) (U : user W).
Context (Hwf : wf_chart ch = true) (HU : user_ok ch U).
Notation S := (mst W acore).
Notation alive := (alive ch).
Notation kids := (kids ch).
Notation good := (good ch).
Notation evo := (evo (W:=W) ch).

Lemma wp_release_events (s : S) :
  wp a_release_events (λ _ s', core s' = core s ∧ evo [] (en s) (en s') ∧ ico (en s') = ico (en s))
    (λ _ _, False) s.
Proof.
  unfold a_release_events. apply wp_on_env. split; [done|]. split; [|done].
  eapply evo_trans_l; [by apply (evo_log0 _ ORelease)|]. by apply evo_same.
Qed.

Lemma wp_destroy x (s : S) :
  wp (a_destroy ch U x)
    (λ _ s', core s' = destroyed ch x (core s) ∧ evo [ODtor x.2 x.1] (en s) (en s') ∧
             ico (en s') = ico (en s)) (λ _ _, False) s.
Proof.
  unfold a_destroy. apply wp_bind, wp_emit, wp_bind. unfold a_user_dtor.
  eapply wp_mono; [apply wp_ucall| |done].
  { intros v w. pose proof (ok_dtor _ _ HU x.1 v w) as Hok.
    destruct (u_dtor U x.1 v w) as [w' cs]. done. }
  intros [] s1 (Hc1 & Hu1 & _). simpl in Hc1, Hu1. apply wp_bind, wp_gets, wp_bind.
  assert (evo [ODtor x.2 x.1] (en s) (en s1)) as He1.
  { eapply evo_trans_r; [|apply (us_evo _ _ _ Hu1)]. by apply evo_log1. }
  apply wp_when; intros _.
  - eapply wp_mono; [apply wp_release_events| |done]. intros [] s2 (Hc2 & He2 & Hi2).
    apply wp_on_core. simpl. split_and!.
    + unfold destroyed. congruence.
    + by eapply evo_trans_r.
    + rewrite Hi2. apply (us_ico _ _ _ Hu1).
  - apply wp_on_core. simpl. split_and!; [by rewrite Hc1|done|apply (us_ico _ _ _ Hu1)].
Qed.

(** Giving up a reference. *)
Record dropped (H : list aid) (x : aid) (s s' : S) : Prop := {
  dr_good : good H (core s');
  dr_unst : aunst (core s') = aunst (core s);
  dr_ord : ord (core s') = ord (core s);
  dr_evo : ∃ L, evo L (en s) (en s') ∧ Forall (λ k, fading k = true) L;
  dr_ico : ico (en s') = ico (en s);
  dr_alive y : alive (core s') y → alive (core s) y;
  dr_same : busy ch H (core s) x = true → s' = s;
  dr_gone : busy ch H (core s) x = false → ¬ alive (core s') x;
  dr_only y : alive (core s) y → ¬ alive (core s') y → within ch y.1 x.1 }.

Lemma wp_drop n H x (s : S) :
  good (x :: H) (core s) → alive (core s) x → x.1 < n →
  wp (a_drop ch U n H x) (λ _ s', dropped H x s s') (λ _ _, False) s.
Proof.
  revert x s. induction n as [|n IH]; intros x s Hg Hx Hn; [lia|]. simpl.
  apply wp_bind, wp_gets, wp_bind, wp_assert; [done|].
  destruct (busy ch H (core s) x) eqn:Hb.
  - apply wp_ret. split; try done. + by eapply good_tighten. + exists []. split; [apply evo_refl|constructor].
    + congruence.
  - pose proof (gd_wf _ _ _ Hg) as Hw.
    apply wp_bind. eapply wp_mono; [apply wp_destroy| |done]. intros [] s1 (Hc1 & He1 & Hi1).
    pose proof (good_destroyed ch Hwf _ _ _ Hg Hx Hb) as Hg1. rewrite <-Hc1 in Hg1.
    assert (∀ y, alive (core s1) y ↔ alive (core s) y ∧ y ≠ x) as Hal.
    { intros y. rewrite Hc1. by eapply destroyed_alive. }
    destruct (ctx_of ch (core s) x.1) as [q|] eqn:Hc.
    + destruct x as [c p]. destruct (ctx_of_alive _ _ _ _ _ _ Hw Hx Hc) as [Hq Hp]. set (x := (c, p)) in *.
      apply (parent_lt _ Hwf) in Hp as Hlt. simpl in Hn.
      eapply wp_mono; [apply IH| |done].
      * done.
      * apply Hal. split; [done|]. intros ->. simpl in Hlt. lia.
      * lia.
      * intros [] s2 [D1 D2 D3 (L & D4 & D4') D5 D6 D7 D8 D9]. split; try done.
        -- by rewrite D2, Hc1.
        -- by rewrite D3, Hc1.
        -- eexists. split; [by eapply evo_trans|]. by repeat constructor.
        -- congruence.
        -- intros y Hy. apply D6 in Hy. by apply Hal.
        -- congruence.
        -- intros _ Hy. apply D6 in Hy. by apply Hal in Hy as [_ ?].
        -- intros y Hy Hny. destruct (decide (y = x)) as [->|Hne]; [by left|].
           assert (parent ch x.1 = Some q.1) as Hpx by by apply (ctx_of_alive _ _ _ _ _ _ Hw Hx Hc).
           right. destruct (D9 y) as [Hin|Hin]; [by apply Hal|done| |].
           ++ rewrite <-Hin, <-Hpx. constructor.
           ++ by eapply encloses_step.
    + apply wp_ret. split; try done.
      * by rewrite Hc1.
      * by rewrite Hc1.
      * eexists. split; [done|]. by repeat constructor.
      * intros y Hy. by apply Hal.
      * congruence.
      * intros _ Hy. by apply Hal in Hy as [_ ?].
      * intros y Hy Hny. destruct (decide (y = x)) as [->|Hne]; [by left|]. exfalso. apply Hny. by apply Hal.
Qed.

Lemma wp_drop_ H x (s : S) :
  good (x :: H) (core s) → alive (core s) x →
  wp (drop_ ch U H x) (λ _ s', dropped H x s s') (λ _ _, False) s.
Proof.
  intros Hg Hx. apply wp_drop; [done..|]. pose proof (gd_decl _ _ _ Hg x Hx). unfold depth_fuel. lia.
Qed.

(** ** History *)
Lemma path_hd_within h l : within ch h l → hd l (path_below ch (parent ch h) l) = h.
Proof.
  intros Hin. assert (encloses ch (parent ch h) l) as He.
  { destruct Hin as [->|Hin]; [constructor|].
    remember (Some h) as o eqn:Ho. induction Hin as [c|o c q Hp Hin IH].
    - eapply encloses_step; [done|]. constructor.
    - eapply encloses_step; [done|]. by apply IH. }
  pose proof (path_hd ch Hwf _ _ He) as [H1 H2].
  by apply (directly_below_unique ch Hwf (parent ch h) l).
Qed.

Lemma store_deep_ok x n h l m :
  within ch h l →
  (∀ r l, m !! r = Some (Some l) →
    encloses ch r.1 l ∧ region ch (hd l (path_below ch r.1 l)) = r) →
  ∀ r l', store_deep_f ch x n h l m !! r = Some (Some l') →
    encloses ch r.1 l' ∧ region ch (hd l' (path_below ch r.1 l')) = r.
Proof.
  revert h m. induction n as [|n IH]; intros h m Hin Hm; [done|]. cbn [store_deep_f].
  destruct (parent ch h) as [q|] eqn:Hp; [|done]. destruct (bool_decide (x = Some h)); [done|]. destruct (inherited_deep ch q); [|done].
  apply IH.
  - right. by eapply within_kid.
  - destruct (cd_deep (cd ch q)); [|done]. intros r l' Hr.
    apply lookup_insert_Some in Hr as [[<- [= <-]]|[_ Hr]]; [|by apply Hm].
    unfold region at 1 2. simpl. split.
    + rewrite Hp. by eapply within_kid.
    + by rewrite path_hd_within.
Qed.

Lemma evo_store_upto x c (v : env W) : evo [] v (store_upto ch x c v) ∧ ico (store_upto ch x c v) = ico v.
Proof.
  assert (hist_ok ch v → hist_ok ch (store_upto ch x c v)) as Hh.
  { intros [H1 H2]. unfold store_upto.
    assert (hist_ok ch (if stores_shallow ch c
            then set_shallow (<[region ch c:=Some c]> (shallow_map v)) v else v)) as Hv1.
    { destruct (stores_shallow ch c); [|done]. split; simpl; [|done]. intros r h Hr.
      apply lookup_insert_Some in Hr as [[<- [= <-]]|[_ Hr]]; [done|]. by apply H1. }
    destruct (stores_deep ch c); [|done]. destruct Hv1 as [H1' H2']. split; [done|].
    change (deep_map (set_deep ?m ?v)) with m. apply store_deep_ok; [by left|done]. }
  unfold store_upto in *. split.
  - apply evo_same; [by destruct (stores_deep ch c), (stores_shallow ch c)..|done].
  - by destruct (stores_deep ch c), (stores_shallow ch c).
Qed.
Lemma evo_store_history c (v : env W) : evo [] v (store_history ch c v) ∧ ico (store_history ch c v) = ico v.
Proof. apply evo_store_upto. Qed.
Lemma evx_hist x g L L' (v v' : env W) : evx ch x g L L' v v' → hist_ok ch v → hist_ok ch v'.
Proof.
  intros (v1 & H1 & H2 & _) Hh. apply (evo_hist _ _ _ _ H2). pose proof (evo_hist _ _ _ _ H1 Hh) as Hh1.
  destruct g as [[c|c|c [z|]|e]|]; try done. apply (evo_hist _ _ _ _ (proj1 (evo_store_upto (Some z) c v1)) Hh1).
Qed.

Lemma deep_levels_spec n h z : z ∈ deep_levels ch n h →
  within ch z h ∧ ∃ q, parent ch z = Some q ∧ cd_deep (cd ch q) = true.
Proof.
  revert h. induction n as [|n IH]; intros h; simpl; [by intros ?%elem_of_nil|].
  destruct (parent ch h) as [q|] eqn:Hp; [|by intros ?%elem_of_nil]. destruct (inherited_deep ch q); [|by intros ?%elem_of_nil].
  rewrite elem_of_app. intros [Hz|Hz].
  - destruct (cd_deep (cd ch q)) eqn:Hd; [|by apply elem_of_nil in Hz]. apply elem_of_list_singleton in Hz as ->.
    split; [by left|]. eauto.
  - apply IH in Hz as [Hw Hz]. split; [|done]. destruct Hw as [->|Hw].
    + right. rewrite <-Hp. constructor.
    + right. by eapply encloses_step.
Qed.
Lemma record_parts_spec c x : x ∈ record_parts ch c →
  match x with
  | None => stores_shallow ch c = true
  | Some z => stores_deep ch c = true ∧ within ch z c ∧ ∃ q, parent ch z = Some q ∧ cd_deep (cd ch q) = true
  end.
Proof.
  unfold record_parts. rewrite elem_of_app. intros [H|H].
  - destruct (stores_shallow ch c) eqn:E; [|by apply elem_of_nil in H]. by apply elem_of_list_singleton in H as ->.
  - destruct (stores_deep ch c) eqn:E; [|by apply elem_of_nil in H]. apply elem_of_list_fmap in H as (z & -> & Hz).
    split; [done|]. by apply deep_levels_spec in Hz.
Qed.

(** ** Leaving one state *)
Definition exits (fe : bool) (L : list aid) : list okind :=
  flat_map (λ x : aid, (if fe then [OExit x.2 x.1] else []) ++ [ODtor x.2 x.1]) L.

(** What an allocator refused: the state that would have been constructed next, an element for the innermost state
    constructed last, or the record of the state exited last. *)
Definition fits (g : option asite) (K K' : list okind) : Prop :=
  match g with
  | None => True
  | Some (AState c) => ∃ p K0, K' = OCtor p c :: K0
  | Some (AEntry c) => ∃ p K0, K = K0 ++ [OCtor p c] ∧ is_leaf ch c = true
  | Some (ARecord c x) => ∃ p K0, K = K0 ++ [OExit p c] ∧ x ∈ record_parts ch c
  | Some (ADefer _) => False
  end.
Lemma fits_pre g L K K' : fits g K K' → fits g (L ++ K) K'.
Proof.
  destruct g as [[c|c|c x|e]|]; try done; intros (p & K0 & -> & Hl); exists p, (L ++ K0); by rewrite <-app_assoc.
Qed.
Lemma fits_post g L K K' : fits g K K' → fits g K (K' ++ L).
Proof. destruct g as [[c|c|c x|e]|]; try done. intros (p & K0 & ->). by exists p, (K0 ++ L). Qed.

(** An exception interrupted the removal of states [L]. *)
Record broken (fe : bool) (H L : list aid) (x : exn) (s s' : S) : Prop := {
  br_fe : fe = true;
  br_good : good H (core s');
  br_unst : aunst (core s') ≠ None ∨ occ (core s') !! (None, 0) = None;
  br_evo : ∃ g K K' L', exits fe L = K ++ K' ∧ fits g K K' ∧ evx ch x g K L' (en s) (en s');
  br_ico : ico (en s') = ico (en s);
  br_cut : cut_at ch L (core s) (core s') }.

Lemma exits_app fe L L' : exits fe (L ++ L') = exits fe L ++ exits fe L'.
Proof. apply flat_map_app. Qed.

Lemma broken_trans fe H L1 L2 x s s1 s' : evo (exits fe L1) (en s) (en s1) → ico (en s1) = ico (en s) →
  core s1 = leave ch L1 (core s) → broken fe H L2 x s1 s' → broken fe H (L1 ++ L2) x s s'.
Proof.
  intros He Hi Hc [B1 B2 B3 (g & K & K' & L' & B4 & Bf & B4') B5 B6]. split; try done.
  - exists g, (exits fe L1 ++ K), K', L'. split; [by rewrite exits_app, B4, app_assoc|]. split; [by apply fits_pre|]. by eapply evx_before.
  - congruence.
  - apply cut_at_app. by rewrite <-Hc.
Qed.

Lemma wp_set_unst H new (s : S) :
  alive_opt ch (core s) new →
  (∀ o, aunst (core s) = Some o → busy ch H (set_aunst new (core s)) o = true) →
  wp (a_set_unst ch H new) (λ _ s', s' = MSt (set_aunst new (core s)) (en s)) (λ _ _, False) s.
Proof.
  intros Hn Ho. unfold a_set_unst. apply wp_bind, wp_gets, wp_bind, wp_assert; [done|].
  apply wp_bind, wp_on_core, wp_bind, wp_gets. simpl.
  destruct (aunst (core s)) as [o|]; [|done]. apply wp_check; [by apply Ho|done].
Qed.

Lemma ctx_alive_opt H a x : wfa ch H a → alive a x → alive_opt ch a (ctx_of ch a x.1).
Proof.
  intros Hw Hx. destruct (ctx_of ch a x.1) as [q|] eqn:Hc; [|done]. destruct x as [c p].
  by apply (ctx_of_alive _ _ _ _ _ _ Hw Hx Hc).
Qed.

Lemma no_top H a x : wfa ch H a → ctx_of ch a x.1 = None → alive a x → region ch x.1 = (None, 0).
Proof.
  intros Hw Hc Hx. destruct x as [c p]. pose proof (ctx_of_None _ _ _ _ _ Hw Hx Hc) as Hp.
  unfold region. simpl. by rewrite Hp, (pos_top _ Hwf _ Hp).
Qed.

Lemma wp_ask_exit x (s : S) :
  wp (ucall_x ch abs_leaves (u_exit U x.1) ;! new_record ch U x.1)
    (λ _ s', core s' = core s ∧ ustep ch (en s) (en s'))
    (λ y s', ∃ g, core s' = core s ∧ (∀ K', fits g [OExit x.2 x.1] K') ∧
       ∃ v, ustep ch (en s) v ∧ en s' = log (OThrow y) (refuse ch g v)) s.
Proof.
  eapply wp_seq; [apply wp_ucall_x, (ok_exit _ _ HU)| |].
  - intros [] s1 [Hc1 Hu1]. unfold new_record.
    eapply wp_mono; [apply wp_new_elements|..].
    + intros [] s2 [Hc2 Hu2]. split; [congruence|]. by eapply ustep_trans.
    + intros y s2 (Hc2 & v & z & Hz & Hu2 & He2). exists (Some (ARecord x.1 z)). split; [congruence|]. split.
      * intros K'. by exists x.2, [].
      * exists v. split; [by eapply ustep_trans|done].
  - intros y s1 (Hc1 & v & Hu1 & He1). exists None. split; [done|]. split; [done|]. by exists v.
Qed.
Lemma wp_exit1 H x fe (s : S) :
  good (x :: H) (core s) → alive (core s) x → kids (core s) x.1 = [] →
  x ∉ ord (core s) → x ∉ H →
  wp (a_exit1 ch U H x fe)
    (λ _ s', core s' = left_ ch x (core s) ∧ evo (exits fe [x]) (en s) (en s') ∧
             ico (en s') = ico (en s))
    (λ y s', broken fe H [x] y s s') s.
Proof.
  intros Hg Hx Hk Ho HH. pose proof (gd_wf _ _ _ Hg) as Hw. unfold a_exit1.
  apply wp_bind, wp_gets.
  eapply (wp_seq _ _ (λ _ s', s' = MSt (restless ch x (core s)) (en s)) (λ _ _, False)); [|
    |by intros ? ? []].
  { unfold restless. destruct (bool_decide (aunst (core s) = None ∨ aunst (core s) = Some x)) eqn:Hu.
    - apply bool_decide_eq_true in Hu. apply wp_set_unst; [by eapply ctx_alive_opt|].
      intros o Ho'. destruct Hu as [Hu|Hu]; [congruence|]. rewrite Hu in Ho'. injection Ho' as <-.
      apply busy_cons.
    - apply wp_ret. by destruct s. }
  intros [] s1 ->. pose proof (good_restless ch Hwf _ _ _ Hg Hx) as Hg1.
  assert (left_ ch x (core s) = destroyed ch x (restless ch x (core s))) as Hleft.
  { unfold left_. by rewrite unlisted_notin. }
  assert (alive (restless ch x (core s)) x) as Hx1 by by apply restless_alive.
  assert (busy ch H (restless ch x (core s)) x = false) as Hnb.
  { apply busy_false. rewrite restless_kids. destruct (restless_fields ch x (core s)) as (_ & _ & -> & _).
    split_and!; try done. by eapply restless_not. }
  apply wp_bind. destruct fe; simpl.
  - apply wp_bind. apply wp_on_exn. unfold a_user_exit. apply wp_bind, wp_emit. simpl.
    eapply wp_mono; [apply (wp_ask_exit x (MSt _ _))| |].
    + intros [] s2 [Hc2 Hu2]. simpl in Hc2, Hu2. apply wp_on_env.
      eapply wp_mono; [apply wp_destroy| |done]. simpl. intros [] s3 (Hc3 & He3 & Hi3).
      destruct (evo_store_history x.1 (en s2)) as [Heh Hih].
      split_and!.
      * by rewrite Hc3, Hc2, Hleft.
      * unfold exits. simpl. change [OExit x.2 x.1; ODtor x.2 x.1] with ([OExit x.2 x.1] ++ [ODtor x.2 x.1]).
        eapply evo_trans; [|exact He3]. eapply evo_trans_r; [|exact Heh].
        eapply evo_trans_r; [|apply (us_evo _ _ _ Hu2)]. by apply evo_log1.
      * rewrite Hi3, Hih. apply (us_ico _ _ _ Hu2).
    + intros y s2 (g & Hc2 & Hgf & v2 & Hu2 & He2). simpl in Hc2, Hu2.
      eapply wp_mono; [apply wp_drop_; rewrite Hc2; done| |done].
      intros [] s3 [D1 D2 D3 (L & D4 & D4') D5 D6 D7 D8 D9]. split.
      * done.
      * done.
      * rewrite D2, Hc2, restless_unst. rewrite Hc2 in D8. specialize (D8 Hnb).
        destruct (bool_decide _) eqn:Hu.
        -- destruct (ctx_of ch (core s) x.1) as [q|] eqn:Hc; [by left|]. right.
           destruct (occ (core s3) !! (None, 0)) as [z|] eqn:Ez; [|done]. exfalso. apply D8.
           pose proof (wa_reg _ _ _ (gd_wf _ _ _ D1) _ _ Ez) as Hr.
           assert (alive (core s3) z) as Hz by (unfold Abs.alive; by rewrite Hr).
           replace x with z; [done|]. apply D6 in Hz. rewrite Hc2 in Hz.
           apply (alive_region ch (restless ch x (core s))); [done|done|].
           rewrite Hr. symmetry. by eapply no_top.
        -- left. apply bool_decide_eq_false in Hu. intros Hn. apply Hu. by left.
      * exists g, [OExit x.2 x.1], [ODtor x.2 x.1], L. split; [done|]. split; [by apply Hgf|].
        exists v2. rewrite He2 in D4. split_and!; [|exact D4|done].
        eapply evo_trans_r; [|apply (us_evo _ _ _ Hu2)]. by apply evo_log1.
      * rewrite D5, He2. simpl. rewrite (proj1 (proj2 (proj2 (refuse_fields ch g v2)))). apply (us_ico _ _ _ Hu2).
      * rewrite Hc2 in D2, D6, D8, D9. specialize (D8 Hnb).
        assert (∀ y, alive (left_ ch x (core s)) y ↔ alive (core s) y ∧ y ≠ x) as Hal.
        { intros z. by eapply left_alive. }
        exists [], x, []. cbn [app leave fold_left]. split_and!; [done|..].
        -- rewrite D2, Hleft. done.
        -- intros z Hy. apply Hal. split; [|by intros ->]. apply D6 in Hy. by apply restless_alive in Hy.
        -- intros z [Hy _]%Hal Hny. apply D9; [by apply restless_alive|done].
  - apply wp_ret. eapply wp_mono; [apply wp_destroy| |done]. simpl. intros [] s3 (Hc3 & He3 & Hi3).
    split_and!; [by rewrite Hc3, Hleft|done|done].
Qed.

(** ** Leaving a state and the outer states this empties *)
Definition cascade (H : list aid) (a : acore) (x : aid) : list aid :=
  if decide (kids a x.1 = [] ∧ x ∉ ord a ∧ x ∉ H) then x :: up ch H a x else [].

(** States [L] were left. *)
Record left_all (fe : bool) (H : list aid) (L : list aid) (s s' : S) : Prop := {
  la_core : core s' = leave ch L (core s);
  la_good : good H (core s');
  la_evo : evo (exits fe L) (en s) (en s');
  la_ico : ico (en s') = ico (en s) }.

Lemma wp_exit n H x fe (s : S) :
  good (x :: H) (core s) → alive (core s) x → x.1 < n →
  wp (a_exit ch U n H x fe)
    (λ _ s', left_all fe H (cascade H (core s) x) s s')
    (λ y s', broken fe H (cascade H (core s) x) y s s') s.
Proof.
  revert x s. induction n as [|n IH]; intros x s Hg Hx Hn; [lia|]. cbn [a_exit].
  pose proof (gd_wf _ _ _ Hg) as Hw.
  apply wp_bind, wp_gets, wp_bind, wp_assert; [done|]. unfold cascade.
  destruct (decide _) as [(Hk & Ho & HH)|Hno].
  2:{ assert (busy ch H (core s) x = true) as Hb.
      { apply busy_true. destruct (decide (kids (core s) x.1 = [])); [|by left].
        destruct (decide (x ∈ ord (core s))); [by right; left|].
        destruct (decide (x ∈ H)); [by do 3 right|]. exfalso. by apply Hno. }
      assert (bool_decide (kids (core s) x.1 ≠ []) || bool_decide (x ∈ ord (core s))
              || bool_decide (x ∈ H) = true) as ->.
      { rewrite !orb_true_iff, !bool_decide_eq_true.
        destruct (decide (kids (core s) x.1 = [])); [|by left; left].
        destruct (decide (x ∈ ord (core s))); [by left; right|].
        destruct (decide (x ∈ H)); [by right|]. exfalso. by apply Hno. }
      apply wp_ret. split; try done; [by eapply good_tighten|apply evo_refl]. }
  assert (bool_decide (kids (core s) x.1 ≠ []) || bool_decide (x ∈ ord (core s))
              || bool_decide (x ∈ H) = false) as ->.
  { rewrite !orb_false_iff, !bool_decide_eq_false. split_and!; try done. intros Hk'. by apply Hk'. }
  eapply wp_seq; [by apply wp_exit1| |].
  2:{ intros y s1 [B1 B2 B3 (g & K & K' & L' & B4 & Bf & B4') B5 B6]. split; try done.
      - change (x :: ?l) with ([x] ++ l). rewrite exits_app, B4, <-app_assoc. exists g, K, (K' ++ exits fe (up ch H (core s) x)), L'. split_and!; [done|by apply fits_post|done].
      - change (x :: ?l) with ([x] ++ l). by apply cut_at_more. }
  intros [] s1 (Hc1 & He1 & Hi1).
  pose proof (good_left ch Hwf _ _ _ Hg Hx Hk HH) as Hg1. rewrite <-Hc1 in Hg1.
  assert (∀ y, alive (core s1) y ↔ alive (core s) y ∧ y ≠ x) as Hal.
  { intros y. rewrite Hc1. by eapply left_alive. }
  rewrite (up_unfold ch Hwf _ _ _ _ Hw Hx).
  destruct (ctx_of ch (core s) x.1) as [q|] eqn:Hc.
  2:{ apply wp_ret. split; [by rewrite Hc1|done..]. }
  assert (q ≠ x) as Hne by by eapply ctx_ne.
  assert (is_leaf ch q.1 = false) as Hql by by eapply ctx_not_leaf.
  pose proof (kids_left ch Hwf _ _ _ _ Hw Hx Hc) as Hkl.
  destruct x as [c p]. destruct (ctx_of_alive _ _ _ _ _ _ Hw Hx Hc) as [Hq Hp]. set (x := (c, p)) in *.
  apply (parent_lt _ Hwf) in Hp as Hlt. simpl in Hn.
  assert (alive (core s1) q) as Hq1 by by apply Hal.
  assert (cascade H (core s1) q =
    if decide (kids (core s) q.1 = [x] ∧ q ∉ H) then q :: up ch H (core s) q else []) as Hcas.
  { unfold cascade. rewrite Hc1.
    assert (q ∉ ord (left_ ch x (core s))) as Hqo.
    { rewrite <-Hc1. intros Hin. apply (wa_ord _ _ _ (gd_wf _ _ _ Hg1)) in Hin as [_ ?]. congruence. }
    destruct (decide (kids (core s) q.1 = [x] ∧ q ∉ H)) as [[H1 H2]|Hn1].
    - rewrite decide_True by (split_and!; try done; by apply Hkl). f_equal.
      eapply (up_agree ch).
      + exact Hw.
      + rewrite <-Hc1. exact (gd_wf _ _ _ Hg1).
      + done.
      + by rewrite <-Hc1.
      + intros r Hr. destruct (left_fields ch x (core s)) as (-> & _). apply lookup_delete_ne.
        unfold region. simpl. rewrite Hp. intros Heq. injection Heq as Heq _.
        apply (encloses_lt ch Hwf) in Hr. symmetry in Heq. apply (parent_lt _ Hwf) in Heq. lia.
      + intros r k Hr. destruct (left_fields ch x (core s)) as (-> & _). apply lookup_delete_ne.
        unfold region. simpl. rewrite Hp. intros Heq. injection Heq as Heq _. subst.
        apply (encloses_lt ch Hwf) in Hr. lia.
    - rewrite decide_False; [done|]. intros (H1 & _ & H3). apply Hn1. split; [by apply Hkl|done]. }
  eapply wp_mono; [apply IH; [done|done|lia]| |].
  - intros [] s2 [A1 A2 A3 A4].
    rewrite Hcas in A1, A3. split.
    + rewrite A1, leave_cons. by rewrite Hc1.
    + done.
    + change (exits fe (x :: ?L)) with (exits fe ([x] ++ L)). rewrite exits_app. by eapply evo_trans.
    + congruence.
  - intros y s2 Hb. rewrite Hcas in Hb. by apply (broken_trans _ _ [x] _ _ _ s1).
Qed.

Lemma wp_exit_ H x fe (s : S) :
  good (x :: H) (core s) → alive (core s) x →
  wp (exit_ ch U H x fe)
    (λ _ s', left_all fe H (cascade H (core s) x) s s')
    (λ y s', broken fe H (cascade H (core s) x) y s s') s.
Proof.
  intros Hg Hx. apply wp_exit; [done..|]. pose proof (gd_decl _ _ _ Hg x Hx). unfold depth_fuel. lia.
Qed.

Lemma wp_unlist x (s : S) :
  x ∈ ord (core s) →
  wp (a_unlist x) (λ _ s', s' = MSt (unlisted x (core s)) (en s)) (λ _ _, False) s.
Proof.
  intros Hx. unfold a_unlist, unlisted. apply wp_bind, wp_gets.
  apply list_find_eq_in in Hx as (i & -> & _). by apply wp_on_core.
Qed.

(** Leaving an innermost state. *)
Lemma wp_leaf H x fe (s : S) :
  good H (core s) → alive (core s) x → is_leaf ch x.1 = true → x ∉ H →
  wp (a_unlist x ;! exit_ ch U H x fe)
    (λ _ s', left_all fe H (x :: up ch H (core s) x) s s')
    (λ y s', broken fe H (x :: up ch H (core s) x) y s s') s.
Proof.
  intros Hg Hx Hl HH. pose proof (gd_wf _ _ _ Hg) as Hw.
  assert (x ∈ ord (core s)) as Ho by (by destruct (good_leaf _ _ _ _ Hg Hx Hl)).
  eapply wp_seq; [by apply wp_unlist| |by intros ? ? []]. intros [] s1 ->.
  pose proof (good_unlisted ch _ _ _ Hg Hx) as Hg1.
  assert (alive (unlisted x (core s)) x) as Hx1 by by apply unlisted_alive.
  assert (x ∉ ord (unlisted x (core s))) as Ho1.
  { rewrite unlisted_ord by apply (wa_dup _ _ _ Hw). tauto. }
  assert (cascade H (unlisted x (core s)) x = x :: up ch H (core s) x) as Hcas.
  { unfold cascade. rewrite decide_True by (rewrite unlisted_kids, kids_leaf by done; done). f_equal.
    destruct (unlisted_fields x (core s)) as (Hocc & _).
    eapply (up_agree ch); [exact Hw|exact (gd_wf _ _ _ Hg1)|done|done| |]; intros; by rewrite Hocc. }
  eapply wp_mono; [by apply wp_exit_| |].
  - intros [] s2. cbn [core en]. rewrite Hcas. intros [A1 A2 A3 A4]. split; try done.
    rewrite A1, !leave_cons. cbn [core]. f_equal. unfold left_ at 1. by rewrite (unlisted_notin x (unlisted x _)).
  - intros y s2. cbn [core en]. rewrite Hcas. intros [B1 B2 B3 B4 B5 B6]. split; try done.
    destruct B6 as (P & x0 & R & HL & B6). exists P, x0, R. split; [done|].
    replace (leave ch (P ++ [x0]) (core s)) with (leave ch (P ++ [x0]) (unlisted x (core s))); [done|].
    assert (∃ l, P ++ [x0] = x :: l) as [l ->].
    { destruct P as [|w P]; cbn [app] in *; injection HL as -> _; eauto. }
    rewrite !leave_cons. f_equal. unfold left_ at 1. by rewrite (unlisted_notin x (unlisted x _)).
Qed.

(** ** Removing a state with everything inside *)
Lemma left_all_trans fe H L L' s s1 s' :
  left_all fe H L s s1 → left_all fe H L' s1 s' → left_all fe H (L ++ L') s s'.
Proof.
  intros [A1 A2 A3 A4] [B1 B2 B3 B4]. split; [|done| |congruence].
  - by rewrite leave_app, B1, A1.
  - rewrite exits_app. by eapply evo_trans.
Qed.

Lemma broken_left fe H L L' x s s1 s' :
  left_all fe H L s s1 → broken fe H L' x s1 s' → broken fe H (L ++ L') x s s'.
Proof. intros [A1 A2 A3 A4]. by eapply broken_trans. Qed.

Lemma sub_not_up a H x y : wfa ch H a → alive a x → y ∈ sub ch a x → ¬ encloses ch (Some y.1) x.1.
Proof.
  intros Hw Hx Hy He. apply (elem_of_sub ch Hwf _ _ _ _ Hw Hx) in Hy as [_ Hin].
  apply (encloses_lt ch Hwf) in He. destruct Hin as [Hin|Hin]; [lia|].
  apply (encloses_lt ch Hwf) in Hin. lia.
Qed.

(** Removing the object of one of several occupied regions of [x] leaves the rest as it was. *)
Lemma leave_kid H a x y : wfa ch H a → alive a x → y ∈ kids a x.1 →
  wfa ch H (leave ch (sub ch a y) a) →
  alive (leave ch (sub ch a y) a) x ∧
  (∀ k, occ (leave ch (sub ch a y) a) !! (Some x.1, k) =
     if decide (k = pos ch y.1) then None else occ a !! (Some x.1, k)) ∧
  up ch H (leave ch (sub ch a y) a) x = up ch H a x ∧
  (∀ z, z ∈ kids a x.1 → z ≠ y → sub ch (leave ch (sub ch a y) a) z = sub ch a z).
Proof.
  intros Hw Hx Hy Hw'. apply (elem_of_kids ch Hwf _ _ _ _ Hw) in Hy as [Hya Hyp].
  pose proof (parent_lt _ Hwf _ _ Hyp) as Hlt.
  assert (region ch y.1 = (Some x.1, pos ch y.1)) as Hyr by (unfold region; by rewrite Hyp).
  assert (∀ c, within ch c x.1 → ¬ within ch y.1 c) as Hnw.
  { intros c [Hc|Hc] [Hc'|Hc'].
    - lia.
    - apply (encloses_lt ch Hwf) in Hc'. lia.
    - apply (encloses_lt ch Hwf) in Hc. lia.
    - apply (encloses_lt ch Hwf) in Hc, Hc'. lia. }
  assert (alive (leave ch (sub ch a y) a) x) as Hx'.
  { apply leave_alive.
    - intros z Hz. by apply (elem_of_sub ch Hwf _ _ _ _ Hw Hya) in Hz as [? _].
    - split; [done|]. intros Hz. apply (elem_of_sub ch Hwf _ _ _ _ Hw Hya) in Hz as [_ Hz].
      by apply (Hnw x.1); [left|]. }
  split_and!.
  - done.
  - intros k. destruct (decide (k = pos ch y.1)) as [->|Hne].
    + rewrite occ_leave. rewrite decide_True; [done|]. apply elem_of_list_In, in_map_iff. exists y.
      split; [by rewrite Hyr|]. apply elem_of_list_In. apply (elem_of_sub ch Hwf _ _ _ _ Hw Hya).
      split; [done|by left].
    + apply (leave_sub_other ch Hwf _ _ _ _ Hw Hya).
      * rewrite Hyr. congruence.
      * simpl. intros c [= <-]. apply Hnw. by left.
  - eapply (up_agree ch); [exact Hw|exact Hw'|done|done| |].
    + intros r Hr. apply (leave_sub_other ch Hwf _ _ _ _ Hw Hya).
      * rewrite Hyr. unfold region. intros Heq. injection Heq as Heq _.
        apply (parent_lt _ Hwf) in Heq. apply (encloses_lt ch Hwf) in Hr. lia.
      * unfold region. simpl. intros c Hc. apply Hnw. right. rewrite <-Hc.
        clear -Hr Hc. remember (Some r) as o eqn:Ho. induction Hr as [c'|o c' q Hp Hin IH].
        -- eapply encloses_step; [done|]. constructor.
        -- eapply encloses_step; [done|]. by apply IH.
    + intros r k Hr. apply (leave_sub_other ch Hwf _ _ _ _ Hw Hya).
      * rewrite Hyr. intros Heq. injection Heq as Heq _. subst. apply (encloses_lt ch Hwf) in Hr. lia.
      * simpl. intros c [= <-]. apply Hnw. by right.
  - intros z Hz Hzy. apply (elem_of_kids ch Hwf _ _ _ _ Hw) in Hz as [Hza Hzp].
    eapply (sub_agree ch); [done|exact Hw|exact Hw'|]. intros c k Hc.
    assert (z.1 ≠ y.1) as Hne by (intros ?; apply Hzy; by apply (alive_unique ch a)).
    apply (leave_sub_other ch Hwf _ _ _ _ Hw Hya).
    + rewrite Hyr. intros Heq. injection Heq as Heq _. subst. destruct Hc as [Hc|Hc].
      * apply (parent_lt _ Hwf) in Hzp. lia.
      * apply (parent_lt _ Hwf) in Hzp. apply (encloses_lt ch Hwf) in Hc. lia.
    + simpl. intros c' [= <-] Hc'. apply Hne. by apply (directly_below_unique ch Hwf (Some x.1) c).
Qed.

Lemma kids_snoc H H' a a' x y : wfa ch H a → wfa ch H' a' → alive a y → parent ch y.1 = Some x →
  (∀ k, occ a' !! (Some x, k) = if decide (k = pos ch y.1) then None else occ a !! (Some x, k)) →
  (∀ k, occ a !! (Some x, k) ≠ None → k ≤ pos ch y.1) →
  kids a x = kids a' x ++ [y].
Proof.
  intros Hw Hw' Hy Hp Ho Hmax.
  assert (∀ z, z ∈ kids a' x ↔ z ∈ kids a x ∧ z ≠ y) as Hin.
  { intros z. unfold Abs.kids. rewrite !elem_of_list_omap. split.
    - intros (k & Hk & Hz). rewrite Ho in Hz. destruct (decide _); [done|]. split; [eauto|].
      intros ->. apply (wa_reg _ _ _ Hw) in Hz. unfold region in Hz. by injection Hz as _ <-.
    - intros ((k & Hk & Hz) & Hne). exists k. split; [done|]. rewrite Ho. rewrite decide_False; [done|].
      intros ->. apply Hne. unfold Abs.alive, region in Hy. rewrite Hp in Hy. congruence. }
  assert (AntiSymm (=) (λ y z : aid, pos ch y.1 < pos ch z.1)) as Has by (intros ????; lia).
  apply (StronglySorted_unique (λ y z : aid, pos ch y.1 < pos ch z.1)).
  - by eapply kids_sorted.
  - apply sorted_app; [by eapply kids_sorted|repeat constructor|].
    intros u v Hu ->%elem_of_list_singleton. apply Hin in Hu as [Hu Hne].
    unfold Abs.kids in Hu. apply elem_of_list_omap in Hu as (k & _ & Hk).
    pose proof (wa_reg _ _ _ Hw _ _ Hk) as Hr.
    assert (k ≤ pos ch y.1) as Hle by (apply Hmax; congruence).
    unfold region in Hr. injection Hr as Hpu ->. apply Nat.le_neq. split; [done|].
    intros Heq. apply Hne. rewrite Heq in Hk. unfold Abs.alive, region in Hy. rewrite Hp in Hy. congruence.
  - apply NoDup_Permutation.
    + by eapply kids_NoDup.
    + apply NoDup_app. split_and!; [by eapply kids_NoDup| |apply NoDup_singleton].
      intros z [_ Hne]%Hin ->%elem_of_list_singleton. done.
    + intros z. rewrite elem_of_app, Hin, elem_of_list_singleton. split.
      * intros Hz. destruct (decide (z = y)); tauto.
      * intros [[? _]| ->]; [done|]. by apply (elem_of_kids ch Hwf _ _ _ _ Hw).
Qed.

(** The objects in the highest occupied region go first. *)
Lemma kids_sub_first H a x y : wfa ch H a → alive a x → alive a y → parent ch y.1 = Some x.1 →
  (∀ k, occ a !! (Some x.1, k) ≠ None → k ≤ pos ch y.1) →
  ∃ R, sub ch a x = sub ch a y ++ R.
Proof.
  intros Hw Hx Hy Hp Hmax.
  assert (∃ l, kids a x.1 = l ++ [y]) as [l Hl].
  { pose proof (kids_sorted ch _ _ x.1 Hw) as Hs.
    assert (y ∈ kids a x.1) as Hyk by by apply (elem_of_kids ch Hwf _ _ _ _ Hw).
    assert (∀ z, z ∈ kids a x.1 → pos ch z.1 ≤ pos ch y.1) as Hle.
    { intros z Hz. apply (elem_of_kids ch Hwf _ _ _ _ Hw) in Hz as [Hz Hzp]. apply Hmax.
      unfold Abs.alive, region in Hz. rewrite Hzp in Hz. congruence. }
    apply elem_of_list_split in Hyk as (l1 & l2 & Heq). exists l1. rewrite Heq in Hs, Hle |- *.
    destruct l2 as [|z l2]; [done|]. exfalso.
    assert (pos ch y.1 < pos ch z.1) as Hlt.
    { clear -Hs. induction l1 as [|w l1 IH]; cbn [app] in Hs; apply StronglySorted_inv in Hs as [Hs Hf].
      - by apply Forall_cons in Hf as [? _].
      - by apply IH. }
    assert (pos ch z.1 ≤ pos ch y.1); [|lia]. apply Hle. apply elem_of_app. right. right. left. }
  rewrite (sub_unfold ch Hwf _ _ x Hw), Hl, rev_app_distr. simpl. rewrite <-app_assoc. eauto.
Qed.

Lemma wp_remove n H x fe (s : S) :
  good H (core s) → alive (core s) x → (∀ y : aid, y ∈ H → y.1 < x.1) → ncls ch - x.1 ≤ n →
  wp (a_remove ch U n H x fe)
    (λ _ s', left_all fe H (gone ch H (core s) x) s s')
    (λ y s', broken fe H (gone ch H (core s) x) y s s') s.
Proof.
  revert x s. induction n as [|n IH]; intros x s Hg Hx HH Hn.
  { pose proof (gd_decl _ _ _ Hg x Hx). lia. }
  pose proof (gd_wf _ _ _ Hg) as Hw.
  assert (x ∉ H) as HxH by (intros Hin; apply HH in Hin; lia).
  cbn [a_remove]. apply wp_bind, wp_gets, wp_bind, wp_assert; [done|].
  destruct (is_leaf ch x.1) eqn:Hl.
  { unfold gone. rewrite (sub_unfold ch Hwf _ _ _ Hw), kids_leaf by done. simpl. by apply wp_leaf. }
  destruct (list_find _ _) as [[f fk]|] eqn:Hf.
  - (* loop over the regions *)
    apply list_find_Some in Hf as (Hfk & Hfo & Hfb). apply lookup_seq in Hfk as [-> Hfk]. simpl in Hfo, Hfb.
    assert (∀ k, occ (core s) !! (Some x.1, k) ≠ None → k ∈ rev (seq f (nreg ch x.1 - f))) as Hall.
    { intros k Hk. rewrite elem_of_rev, elem_of_seq.
      destruct (occ (core s) !! (Some x.1, k)) as [y|] eqn:Hy; [|done].
      pose proof (wa_reg _ _ _ Hw _ _ Hy) as Hr. unfold region in Hr. injection Hr as Hp Hpos.
      pose proof (pos_lt _ Hwf _ _ Hp) as Hlt. rewrite Hpos in Hlt.
      destruct (decide (k < f)) as [Hkf|]; [|lia]. exfalso.
      assert (¬ (occ (core s) !! (Some x.1, k) ≠ None)) as Hno.
      { apply (Hfb k k); [|done]. apply lookup_seq. lia. }
      apply Hno. congruence. }
    assert (∃ ks0, rev (seq f (nreg ch x.1 - f)) = ks0 ++ [f]) as [ks0 Hlast].
    { replace (nreg ch x.1 - f) with (Datatypes.S (nreg ch x.1 - f - 1)) by lia. simpl. eauto. }
    pose proof (sorted_rev _ _ (seq_sorted f (nreg ch x.1 - f))) as Hsort.
    rewrite Hlast in Hall, Hsort |- *. clear Hlast Hfb Hfk.
    simpl in Hfo.
    revert s Hg Hx Hw Hfo Hall. induction ks0 as [|k ks0 IHk]; intros s Hg Hx Hw Hfo Hall.
    + simpl. apply wp_bind. apply wp_bind, wp_gets, wp_bind, wp_assert; [done|].
      destruct (occ (core s) !! (Some x.1, f)) as [y|] eqn:Hy; [|done].
      pose proof (wa_reg _ _ _ Hw _ _ Hy) as Hr.
      assert (alive (core s) y) as Hya by (unfold Abs.alive; by rewrite Hr).
      unfold region in Hr. injection Hr as Hp Hpos.
      pose proof (parent_lt _ Hwf _ _ Hp) as Hlt.
      assert (kids (core s) x.1 = [y]) as Hk.
      { assert (∀ z, z ∈ kids (core s) x.1 → z = y) as Hz.
        { intros z Hz. unfold Abs.kids in Hz. apply elem_of_list_omap in Hz as (k & _ & Hz).
          assert (k ∈ [f]) as Hkf by (apply Hall; congruence).
          apply elem_of_list_singleton in Hkf as ->. congruence. }
        pose proof (kids_NoDup ch _ _ x.1 Hw) as Hnd.
        assert (y ∈ kids (core s) x.1) as Hyk by by apply (elem_of_kids ch Hwf _ _ _ _ Hw).
        destruct (kids (core s) x.1) as [|z l]; [by apply elem_of_nil in Hyk|].
        assert (z = y) as -> by (apply Hz; left). destruct l as [|z l]; [done|].
        assert (z = y) as -> by (apply Hz; right; left). apply NoDup_cons in Hnd as [Hnd _].
        destruct Hnd. left. }
      assert (ctx_of ch (core s) y.1 = Some x) as Hc by (unfold ctx_of; rewrite Hp; done).
      replace (gone ch H (core s) x) with (gone ch H (core s) y).
      * eapply wp_mono; [apply IH; [done|done| |lia]| |done].
        -- intros z Hz. specialize (HH z Hz). lia.
        -- intros [] s1 Hla. by apply wp_ret.
      * unfold gone. rewrite (sub_unfold ch Hwf _ _ x Hw), (up_unfold ch Hwf _ _ _ y Hw Hya), Hc, Hk.
        rewrite decide_True by done. simpl. by rewrite app_nil_r, <-app_assoc.
    + cbn [app]. cbn [app] in Hsort, Hall. apply wp_iter_cons. apply wp_bind, wp_gets, wp_bind, wp_assert; [done|].
      apply StronglySorted_inv in Hsort as [Hsort Hgt]. rewrite Forall_forall in Hgt. unfold flip in Hgt.
      destruct (occ (core s) !! (Some x.1, k)) as [y|] eqn:Hy.
      2:{ apply wp_ret. apply IHk; try done. intros j Hj. specialize (Hall j Hj).
          apply elem_of_cons in Hall as [->|Hj']; [congruence|done]. }
      pose proof (wa_reg _ _ _ Hw _ _ Hy) as Hr.
      assert (alive (core s) y) as Hya by (unfold Abs.alive; by rewrite Hr).
      unfold region in Hr. injection Hr as Hp Hpos.
      pose proof (parent_lt _ Hwf _ _ Hp) as Hlt.
      assert (y ∈ kids (core s) x.1) as Hyk by by apply (elem_of_kids ch Hwf _ _ _ _ Hw).
      assert (ctx_of ch (core s) y.1 = Some x) as Hc by (unfold ctx_of; rewrite Hp; done).
      assert (gone ch H (core s) y = sub ch (core s) y) as Hgy.
      { unfold gone. rewrite (up_unfold ch Hwf _ _ _ y Hw Hya), Hc. rewrite decide_False, app_nil_r; [done|].
        intros [Hk _]. destruct (occ (core s) !! (Some x.1, f)) as [z|] eqn:Hz; [|done].
        pose proof (wa_reg _ _ _ Hw _ _ Hz) as Hr.
        assert (alive (core s) z) as Hza by (unfold Abs.alive; by rewrite Hr).
        unfold region in Hr. injection Hr as Hpz Hposz.
        assert (z ∈ kids (core s) x.1) as Hzk by by apply (elem_of_kids ch Hwf _ _ _ _ Hw).
        rewrite Hk in Hzk. apply elem_of_list_singleton in Hzk as ->.
        assert (f < k) by (apply Hgt; apply elem_of_app; right; left). lia. }
      pose proof (kids_sub_first H (core s) x y Hw Hx Hya Hp) as Hfirst.
      assert (∀ j, occ (core s) !! (Some x.1, j) ≠ None → j ≤ pos ch y.1) as Hmax.
      { intros j Hj. specialize (Hall j Hj). apply elem_of_cons in Hall as [->|Hj']; [lia|].
        apply Hgt in Hj'. lia. }
      destruct (Hfirst Hmax) as [R HR]. clear Hfirst.
      eapply wp_mono; [apply IH; [done|done| |lia]| |].
      * intros z Hz. specialize (HH z Hz). lia.
      * intros [] s1 Hla. rewrite Hgy in Hla.
        pose proof (gd_wf _ _ _ (la_good _ _ _ _ _ Hla)) as Hw1.
        pose proof (la_core _ _ _ _ _ Hla) as Hc1. rewrite Hc1 in Hw1.
        destruct (leave_kid _ _ _ _ Hw Hx Hyk Hw1) as (Hx1 & Ho1 & Hup & Hsub).
        rewrite <-Hc1 in Hx1, Ho1, Hup, Hsub, Hw1.
        assert (f < k) as Hfk by (apply Hgt; apply elem_of_app; right; left).
        assert (gone ch H (core s) x = sub ch (core s) y ++ gone ch H (core s1) x) as Hsplit.
        { unfold gone. rewrite (sub_unfold ch Hwf _ _ x Hw), (sub_unfold ch Hwf _ _ x Hw1), Hup.
          rewrite (kids_snoc _ _ _ (core s1) _ _ Hw Hw1 Hya Hp); [|done|done].
          rewrite rev_app_distr. simpl. rewrite <-!app_assoc. f_equal. f_equal. f_equal.
          apply map_ext_in. intros z Hz%elem_of_list_In. rewrite elem_of_rev in Hz.
          apply (elem_of_kids ch Hwf _ _ _ _ Hw1) in Hz as [Hz1 Hzp].
          assert (alive (core s) z ∧ z ≠ y) as [Hz Hzy].
          { unfold Abs.alive, region in Hz1. rewrite Hzp, Ho1 in Hz1.
            destruct (decide _) as [|Hne]; [done|]. split.
            - unfold Abs.alive, region. by rewrite Hzp.
            - intros ->. done. }
          symmetry. apply Hsub; [|done]. by apply (elem_of_kids ch Hwf _ _ _ _ Hw). }
        rewrite Hsplit.
        eapply wp_mono; [apply IHk| |].
        -- done.
        -- apply (la_good _ _ _ _ _ Hla).
        -- done.
        -- done.
        -- rewrite Ho1. rewrite decide_False by lia. done.
        -- intros j Hj. rewrite Ho1 in Hj. destruct (decide _) as [|Hne]; [done|].
           specialize (Hall j Hj). apply elem_of_cons in Hall as [->|Hj']; [congruence|done].
        -- intros [] s2 Hla2. by eapply left_all_trans.
        -- intros e s2 Hb. by eapply broken_left.
      * intros e s1 [B1 B2 B3 (g & K & K' & L' & B4 & Bf & B4') B5 B6]. rewrite Hgy in B4, B6. split; try done.
        -- unfold gone. rewrite HR, <-app_assoc, exits_app, B4, <-app_assoc. eexists g, K, _, L'. split_and!; [done|by apply fits_post|done].
        -- unfold gone. rewrite HR, <-app_assoc. by apply cut_at_more.
  - (* nothing inside *)
    assert (kids (core s) x.1 = []) as Hk.
    { apply kids_nil. intros k Hlt. apply list_find_None in Hf. rewrite Forall_forall in Hf.
      specialize (Hf k). destruct (occ (core s) !! (Some x.1, k)); [|done].
      exfalso. apply Hf; [by apply elem_of_seq; lia|done]. }
    assert (x ∉ ord (core s)) as Ho.
    { intros Hin. apply (wa_ord _ _ _ Hw) in Hin as [_ ?]. congruence. }
    apply wp_bind, wp_assert.
    { pose proof (gd_busy _ _ _ Hg x Hx) as Hb. apply busy_true in Hb. tauto. }
    pose proof (good_weaken ch _ _ _ Hg Hx) as Hg1.
    replace (gone ch H (core s) x) with (cascade H (core s) x); [by apply wp_exit_|].
    unfold gone, cascade. rewrite decide_True by done.
    by rewrite (sub_unfold ch Hwf _ _ x Hw), Hk.
Qed.

(** ** Removing everything inside a state that is held *)
Lemma wp_empty_regions n H w fe ks (s : S) :
  good (w :: H) (core s) → alive (core s) w → (∀ y : aid, y ∈ H → y.1 < w.1) → ncls ch - w.1 ≤ Datatypes.S n →
  StronglySorted (flip lt) ks → (∀ k, occ (core s) !! (Some w.1, k) ≠ None → k ∈ ks) →
  wp (Base.iter (λ k,
        let! a := gets core in
        assert (alive a w) ;!
        match occ a !! (Some w.1, k) with
        | Some y => a_remove ch U n (w :: H) y fe
        | None => ret tt
        end) ks)
    (λ _ s', left_all fe (w :: H) (insides ch (core s) w) s s')
    (λ y s', broken fe (w :: H) (insides ch (core s) w) y s s') s.
Proof.
  revert s. induction ks as [|k ks IH]; intros s Hg Hx HH Hn Hsort Hall.
  - apply wp_ret. assert (insides ch (core s) w = []) as ->; [|split; try done; apply evo_refl].
    unfold insides. replace (kids (core s) w.1) with (@nil aid); [done|]. symmetry. apply kids_nil. intros k Hk.
    destruct (occ (core s) !! (Some w.1, k)) as [y|] eqn:Hy; [|done].
    assert (k ∈ []) as Hin by (apply Hall; congruence). by apply elem_of_nil in Hin.
  - pose proof (gd_wf _ _ _ Hg) as Hw.
    apply wp_iter_cons. apply wp_bind, wp_gets, wp_bind, wp_assert; [done|].
    apply StronglySorted_inv in Hsort as [Hsort Hgt]. rewrite Forall_forall in Hgt. unfold flip in Hgt.
    destruct (occ (core s) !! (Some w.1, k)) as [y|] eqn:Hy.
    2:{ apply wp_ret. apply IH; try done. intros j Hj. specialize (Hall j Hj).
        apply elem_of_cons in Hall as [->|Hj']; [congruence|done]. }
    pose proof (wa_reg _ _ _ Hw _ _ Hy) as Hr.
    assert (alive (core s) y) as Hya by (unfold Abs.alive; by rewrite Hr).
    unfold region in Hr. injection Hr as Hp Hpos.
    pose proof (parent_lt _ Hwf _ _ Hp) as Hlt.
    assert (y ∈ kids (core s) w.1) as Hyk by by apply (elem_of_kids ch Hwf _ _ _ _ Hw).
    assert (ctx_of ch (core s) y.1 = Some w) as Hc by (unfold ctx_of; rewrite Hp; done).
    assert (gone ch (w :: H) (core s) y = sub ch (core s) y) as Hgy.
    { unfold gone. rewrite (up_unfold ch Hwf _ _ _ y Hw Hya), Hc. rewrite decide_False, app_nil_r; [done|].
      intros [_ Hn']. apply Hn'. left. }
    assert (∀ j, occ (core s) !! (Some w.1, j) ≠ None → j ≤ pos ch y.1) as Hmax.
    { intros j Hj. specialize (Hall j Hj). apply elem_of_cons in Hall as [->|Hj']; [lia|].
      apply Hgt in Hj'. lia. }
    assert (∃ R, insides ch (core s) w = sub ch (core s) y ++ R) as [R HR].
    { destruct (kids_sub_first (w :: H) (core s) w y Hw Hx Hya Hp Hmax) as [R HR].
      rewrite (sub_unfold ch Hwf _ _ w Hw) in HR. fold (insides ch (core s) w) in HR.
      destruct R as [|r R _] using rev_ind.
      - rewrite app_nil_r in HR. exfalso.
        assert (w ∈ sub ch (core s) y) as Hin by (rewrite <-HR; apply elem_of_app; right; left).
        apply (elem_of_sub ch Hwf _ _ _ _ Hw Hya) in Hin as [_ [Hin|Hin]]; [lia|].
        apply (encloses_lt ch Hwf) in Hin. lia.
      - exists R. rewrite app_assoc in HR. by apply app_inj_tail in HR as [-> _]. }
    eapply wp_mono; [apply wp_remove; [done|done| |lia]| |].
    + intros z [->|Hz]%elem_of_cons; [done|]. specialize (HH z Hz). lia.
    + intros [] s1 Hla. rewrite Hgy in Hla.
      pose proof (gd_wf _ _ _ (la_good _ _ _ _ _ Hla)) as Hw1.
      pose proof (la_core _ _ _ _ _ Hla) as Hc1. rewrite Hc1 in Hw1.
      destruct (leave_kid _ _ _ _ Hw Hx Hyk Hw1) as (Hx1 & Ho1 & Hup & Hsub).
      rewrite <-Hc1 in Hx1, Ho1, Hup, Hsub, Hw1.
      assert (insides ch (core s) w = sub ch (core s) y ++ insides ch (core s1) w) as Hsplit.
      { unfold insides.
        rewrite (kids_snoc _ _ _ (core s1) _ _ Hw Hw1 Hya Hp); [|done|done].
        rewrite rev_app_distr. simpl. f_equal. f_equal.
        apply map_ext_in. intros z Hz%elem_of_list_In. rewrite elem_of_rev in Hz.
        apply (elem_of_kids ch Hwf _ _ _ _ Hw1) in Hz as [Hz1 Hzp].
        assert (alive (core s) z ∧ z ≠ y) as [Hz Hzy].
        { unfold Abs.alive, region in Hz1. rewrite Hzp, Ho1 in Hz1.
          destruct (decide _) as [|Hne]; [done|]. split.
          - unfold Abs.alive, region. by rewrite Hzp.
          - intros ->. done. }
        symmetry. apply Hsub; [|done]. by apply (elem_of_kids ch Hwf _ _ _ _ Hw). }
      rewrite Hsplit.
      eapply wp_mono; [apply IH| |].
      * apply (la_good _ _ _ _ _ Hla).
      * done.
      * done.
      * done.
      * done.
      * intros j Hj. rewrite Ho1 in Hj. destruct (decide _) as [|Hne]; [done|].
        specialize (Hall j Hj). apply elem_of_cons in Hall as [->|Hj']; [congruence|done].
      * intros [] s2 Hla2. by eapply left_all_trans.
      * intros e s2 Hb. by eapply broken_left.
    + intros e s1 [B1 B2 B3 (g & K & K' & L' & B4 & Bf & B4') B5 B6]. rewrite Hgy in B4, B6. split; try done.
      * rewrite HR, exits_app, B4, <-app_assoc. eexists g, K, _, L'. split_and!; [done|by apply fits_post|done].
      * rewrite HR. by apply cut_at_more.
Qed.

Lemma wp_empty n H w fe (s : S) :
  good (w :: H) (core s) → alive (core s) w → (∀ y : aid, y ∈ H → y.1 < w.1) → kids (core s) w.1 ≠ [] →
  ncls ch - w.1 ≤ n →
  wp (a_remove ch U n (w :: H) w fe)
    (λ _ s', left_all fe (w :: H) (insides ch (core s) w) s s')
    (λ y s', broken fe (w :: H) (insides ch (core s) w) y s s') s.
Proof.
  intros Hg Hx HH Hk Hn. pose proof (gd_wf _ _ _ Hg) as Hw.
  destruct n as [|n]. { pose proof (gd_decl _ _ _ Hg w Hx). lia. }
  cbn [a_remove]. apply wp_bind, wp_gets, wp_bind, wp_assert; [done|].
  destruct (is_leaf ch w.1) eqn:Hl.
  { exfalso. apply Hk. by apply kids_leaf. }
  destruct (list_find _ _) as [[f fk]|] eqn:Hf.
  2:{ exfalso. apply Hk. apply kids_nil. intros k Hlt. apply list_find_None in Hf. rewrite Forall_forall in Hf.
      specialize (Hf k). destruct (occ (core s) !! (Some w.1, k)); [|done].
      exfalso. apply Hf; [by apply elem_of_seq; lia|done]. }
  apply list_find_Some in Hf as (Hfk & Hfo & Hfb). apply lookup_seq in Hfk as [-> Hfk]. simpl in Hfo, Hfb.
  apply wp_empty_regions; try done.
  - apply sorted_rev, seq_sorted.
  - intros k Hk'. rewrite elem_of_rev, elem_of_seq.
    destruct (occ (core s) !! (Some w.1, k)) as [y|] eqn:Hy; [|done].
    pose proof (wa_reg _ _ _ Hw _ _ Hy) as Hr. unfold region in Hr. injection Hr as Hp Hpos.
    pose proof (pos_lt _ Hwf _ _ Hp) as Hlt. rewrite Hpos in Hlt.
    destruct (decide (k < f)) as [Hkf|]; [|lia]. exfalso.
    assert (¬ (occ (core s) !! (Some w.1, k) ≠ None)) as Hno.
    { apply (Hfb k k); [|done]. apply lookup_seq. lia. }
    apply Hno. congruence.
Qed.

End wp_exit.
