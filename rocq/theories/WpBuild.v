(** Entering states, without faults. *)
From Verif Require Export Build.

Section wp_build.
Context {W : Type} (ch : chart) (U : user W).
Context (Hwf : wf_chart ch = true) (HU : user_ok ch U).
Notation S := (mst W acore).
Notation alive := (alive ch).
Notation kids := (kids ch).
Notation good := (good ch).
Notation evo := (evo (W:=W) ch).

(** The configuration after entering states, in order. *)
Definition enter1 (a : acore) (c : cls) : acore :=
  ACore (<[region ch c := (c, anxt a)]> (occ a)) (dfr a)
    (if is_leaf ch c then ord a ++ [(c, anxt a)] else ord a) (aunst a) (anxt a + 1).
Definition enter (cs : list cls) (a : acore) : acore := fold_left enter1 cs a.

Lemma enter_app cs cs' a : enter (cs ++ cs') a = enter cs' (enter cs a).
Proof. apply fold_left_app. Qed.
Lemma anxt_enter cs a : anxt (enter cs a) = anxt a + length cs.
Proof.
  revert a. induction cs as [|c cs IH]; intros a; simpl; [lia|]. change (fold_left enter1 cs) with (enter cs).
  rewrite IH. simpl. lia.
Qed.
Lemma enter_unst u cs a : enter cs (set_aunst u a) = set_aunst u (enter cs a).
Proof.
  revert a. induction cs as [|c cs IH]; intros a; [done|]. simpl. change (fold_left enter1 cs) with (enter cs).
  by rewrite <-IH.
Qed.
Lemma unst_enter cs a : aunst (enter cs a) = aunst a.
Proof.
  revert a. induction cs as [|c cs IH]; intros a; [done|]. simpl. change (fold_left enter1 cs) with (enter cs).
  by rewrite IH.
Qed.
Lemma set_aunst_twice u u' a : set_aunst u (set_aunst u' a) = set_aunst u a.
Proof. done. Qed.
Lemma set_aunst_same a : set_aunst (aunst a) a = a.
Proof. by destruct a. Qed.

(** ** One state *)
(** Does entering [c] below [ctx] move the outermost unstable state? *)
Definition hot (s : S) (c : cls) (ctx : option aid) : Prop :=
  aunst (core s) = ctx ∧ (ico (en s) = true ∨ pos ch c + 1 = nreg_ctx ch (parent ch c)).
Definition cold (s : S) (c : cls) (ctx : option aid) : Prop :=
  ico (en s) = false ∧ aunst (core s) ≠ None ∧
  ¬ (pos ch c + 1 = nreg_ctx ch (parent ch c) ∧ aunst (core s) = ctx).

(** Where the outermost unstable state is when [c] is about to be entered below [ctx]; [a0] is the
    configuration at the beginning of the current step. *)
Definition spot (s : S) (c : cls) (ctx : option aid) (a0 : acore) : Prop :=
  (∀ y, alive a0 y → y.2 < anxt (core s)) ∧
  ∀ u, aunst (core s) = Some u → ∃ q, ctx = Some q ∧ within ch u.1 q.1 ∧
    (∃ k, newvac ch a0 (core s) u k) ∧
    (∀ z k, newvac ch a0 (core s) z k → within ch u.1 z.1) ∧
    (hot s c ctx → ∀ z k, newvac ch a0 (core s) z k → z = q ∧ k = pos ch c) ∧
    (cold s c ctx → ∃ k, newvac ch a0 (core s) u k ∧ (u, k) ≠ (q, pos ch c)).
(** The same when the regions of [x] from [j] on are about to be entered. *)
Definition ispot (s : S) (x : aid) (j : nat) (a0 : acore) : Prop :=
  (∀ y, alive a0 y → y.2 < anxt (core s)) ∧ ¬ alive a0 x ∧
  ∀ u, aunst (core s) = Some u → within ch u.1 x.1 ∧
    (∀ z k, newvac ch a0 (core s) z k → within ch u.1 z.1) ∧
    (u = x → ∀ z k, newvac ch a0 (core s) z k → z = x ∧ j ≤ k) ∧
    (u ≠ x → ∃ k, newvac ch a0 (core s) u k).

Lemma vacant_unst u a z k : vacant ch (set_aunst u a) z k ↔ vacant ch a z k.
Proof. done. Qed.
Lemma vacant_created c a z k : occ a !! region ch c = None → (∀ r w, occ a !! r = Some w → region ch w.1 = r) →
  vacant ch (enter1 a c) z k →
  (z = (c, anxt a) ∧ k < nreg ch c) ∨ (vacant ch a z k ∧ region ch c ≠ (Some z.1, k)).
Proof.
  intros Hocc Hreg (H1 & H2 & H3). unfold Abs.alive in H1. simpl in *.
  apply lookup_insert_None in H3 as [H3 H4].
  destruct (decide (region ch c = region ch z.1)) as [Hr|Hr].
  - rewrite Hr, lookup_insert in H1. injection H1 as <-. by left.
  - rewrite lookup_insert_ne in H1 by done. by right.
Qed.
Lemma created_vacant c a z k : occ a !! region ch c = None → 
  vacant ch a z k → region ch c ≠ (Some z.1, k) → vacant ch (enter1 a c) z k.
Proof.
  intros Hocc (H1 & H2 & H3) Hr. unfold vacant, Abs.alive in *. simpl.
  split_and!; [|done|by rewrite lookup_insert_ne].
  rewrite lookup_insert_ne; [done|]. intros Heq. congruence.
Qed.
Lemma newvac_in a0 a a' z k : newvac ch a0 a' z k → (vacant ch a' z k → vacant ch a z k) → newvac ch a0 a z k.
Proof. unfold newvac. tauto. Qed.

Lemma wp_new H c ctx (s : S) :
  c < ncls ch → good H (core s) → ctx_ok ch H (core s) c ctx → occ (core s) !! region ch c = None →
  wp (a_new ch U H c ctx)
    (λ x s', x = (c, anxt (core s)) ∧ core s' = created ch x (core s) ∧
             evo [OCtor x.2 x.1] (en s) (en s') ∧ ico (en s') = ico (en s))
    (λ y s', ∃ g n L, (g = None ∨ g = Some (AState c)) ∧ anxt (core s) ≤ n ∧ core s' = set_anxt n (core s) ∧
             evx ch y g [] L (en s) (en s')) s.
Proof.
  intros Hc Hg Hctx Hocc. unfold a_new. eapply wp_seq; [apply (wp_alloc ch)| |].
  2: { intros y s1 (Hc1 & v & Hu & Hv). exists (Some (AState c)), (anxt (core s)), []. split_and!; [by right|done| |].
       - rewrite Hc1. by destruct (core s).
       - rewrite Hv. eapply evx_before0; [apply (us_evo _ _ _ Hu)|]. apply (evx_throw ch y (Some (AState c))). }
  intros [] sa (Hca & Hua). rewrite <-Hca in *. apply wp_bind, wp_gets, wp_bind, wp_assert; [done|].
  apply wp_bind, wp_assert; [done|]. apply wp_bind, wp_on_core. cbn [core en].
  set (s0 := MSt (set_anxt (anxt (core sa) + 1) (core sa)) (en sa)).
  eapply (wp_seq _ _ (λ _ s', core s' = core s0 ∧ evo [OCtor (anxt (core sa)) c] (en sa) (en s') ∧
      ico (en s') = ico (en sa))
    (λ y s', core s' = core s0 ∧ evx ch y None [] [OCtorThrow (anxt (core sa)) c] (en sa) (en s'))).
  - assert (wp (a_user_ctor ch U (anxt (core sa)) c)
      (λ _ s', core s' = core s0 ∧ evo [OCtor (anxt (core sa)) c] (en sa) (en s') ∧
        ico (en s') = ico (en sa))
      (λ y s', core s' = core s0 ∧ evx ch y None [] [OCtorThrow (anxt (core sa)) c] (en sa) (en s')) s0) as Hu.
    { unfold a_user_ctor. apply wp_bind. eapply wp_mono; [apply wp_ucall, (ok_ctor _ _ HU)| |done].
      intros [y|] s1 (Hc1 & Hu1 & _); simpl in Hu1.
      - apply wp_bind, wp_emit, wp_bind, wp_emit, wp_throw. simpl. split; [done|].
        exists (en s1). split_and!; [apply (us_evo _ _ _ Hu1)|by apply evo_log1|by repeat constructor].
      - apply wp_emit. simpl. split_and!; [done| |apply (us_ico _ _ _ Hu1)].
        eapply evo_trans_l; [apply (us_evo _ _ _ Hu1)|]. by apply evo_log1. }
    destruct (cd_state (cd ch c)) eqn:Hst; [done|].
    unfold a_simple_ctor. apply wp_bind, wp_gets, wp_bind, wp_check; [|exact Hu].
    by rewrite (ok_simple _ _ HU).
  - intros [] s1 (Hc1 & He1 & Hi1). apply wp_bind, wp_on_core, wp_ret. simpl. split_and!; try done.
    + by rewrite Hc1.
    + eapply evo_trans_l; [apply (us_evo _ _ _ Hua)|done].
    + rewrite Hi1. apply (us_ico _ _ _ Hua).
  - intros y s1 (Hc1 & He1). eexists None, (anxt (core sa) + 1), _. split_and!; [by left|lia|done|].
    eapply evx_before0; [apply (us_evo _ _ _ Hua)|done].
Qed.

Lemma good_anxt H a n : good H a → anxt a ≤ n → good H (set_anxt n a).
Proof.
  intros [Hw Hb Hu Hd] Hn. split; try done. destruct Hw. split; simpl; try done.
  - intros x Hx. specialize (wa_fresh x Hx). simpl. lia.
  - intros p Hp. specialize (wa_dfr p Hp). lia.
Qed.

Lemma good_created H a c ctx :
  good H a → ctx_ok ch H a c ctx → occ a !! region ch c = None → c < ncls ch →
  good ((c, anxt a) :: H) (created ch (c, anxt a) a).
Proof.
  intros [Hw Hb Hu Hd] Hctx Hocc Hc. pose proof (λ y, created_alive ch _ _ (c, anxt a) y Hw Hocc) as Hal. split.
  - by eapply wfa_created.
  - intros y [Hy| ->]%Hal; [|apply busy_cons]. specialize (Hb y Hy). rewrite busy_true in *.
    rewrite elem_of_cons. destruct Hb as [Hb|[Hb|[Hb|Hb]]]; [left|tauto..].
    rewrite kids_nil in *. intros Hk. apply Hb. intros k Hlt. specialize (Hk k Hlt). simpl in Hk.
    by apply lookup_insert_None in Hk as [? _].
  - done.
  - intros y [Hy| ->]%Hal; [by apply Hd|done].
Qed.

Lemma good_listed H a x : good (x :: H) a → alive a x → is_leaf ch x.1 = true → x ∉ ord a →
  good (x :: H) (set_ord (ord a ++ [x]) a).
Proof.
  intros [Hw Hb Hu Hd] Hx Hl Hn. split; try done.
  - by apply wfa_listed.
  - intros y Hy. specialize (Hb y Hy). rewrite busy_true in *. simpl. rewrite elem_of_app.
    change (kids (set_ord (ord a ++ [x]) a) y.1) with (kids a y.1). tauto.
Qed.

Lemma good_set_unst' H a u :
  good H a → alive_opt ch a u → (∀ x, u = Some x → is_leaf ch x.1 = false) →
  (∀ o, aunst a = Some o → busy ch H (set_aunst u a) o = true) → good H (set_aunst u a).
Proof.
  intros [Hw Hb Hu Hd] Hal Hl Hbo. split; try done.
  - destruct Hw. split; try done. intros x Hx. simpl in Hx. by rewrite Hx in Hal.
  - intros y Hy. change (alive (set_aunst u a) y) with (alive a y) in Hy.
    destruct (decide (aunst a = Some y)) as [Heq|Hne]; [by apply Hbo|].
    specialize (Hb y Hy). rewrite busy_true in *. simpl.
    change (kids (set_aunst u a) y.1) with (kids a y.1). tauto.
Qed.

Definition cand (x : aid) : option aid := if is_leaf ch x.1 then None else Some x.

(** A single state was entered. *)
Record stepped (H : list aid) (c : cls) (u : option aid) (x : aid) (s s' : S) : Prop := {
  st_x : x = (c, anxt (core s));
  st_core : core s' = set_aunst u (enter1 (core s) c);
  st_good : good (x :: H) (core s');
  st_evo : evo [OCtor x.2 x.1] (en s) (en s');
  st_ico : ico (en s') = false }.

(** A place in the list of innermost states. *)
Lemma wp_entry H c ctx (s s1 : S) x :
  c < ncls ch → good H (core s) → ctx_ok ch H (core s) c ctx → occ (core s) !! region ch c = None →
  x = (c, anxt (core s)) → core s1 = created ch x (core s) → evo [OCtor x.2 x.1] (en s) (en s1) →
  wp (a_entry ch U x)
    (λ _ s', core s' = core s1 ∧ evo [OCtor x.2 x.1] (en s) (en s') ∧ ico (en s') = ico (en s1))
    (λ y s', core s' = set_anxt (anxt (core s) + 1) (core s) ∧
       is_leaf ch c = true ∧ ∃ L, evx ch y (Some (AEntry c)) [OCtor (anxt (core s)) c] L (en s) (en s')) s1.
Proof.
  intros Hc Hg Hctx Hocc Hx Hc1 He1. unfold a_entry. apply wp_when; intros Hl; [|done].
  apply wp_on_exn. eapply wp_mono; [apply (wp_alloc ch)|..].
  - intros [] s2 [Hc2 Hu2]. split_and!; [done| |apply (us_ico _ _ _ Hu2)]. eapply evo_trans_r; [exact He1|apply (us_evo _ _ _ Hu2)].
  - intros y s2 (Hc2 & v & Hu2 & Hv2). pose proof (gd_wf _ _ _ Hg) as Hw.
    pose proof (good_created _ _ _ _ Hg Hctx Hocc Hc) as Hg1. rewrite <-Hx, <-Hc1, <-Hc2 in Hg1.
    assert (alive (core s2) x) as Hxa by (apply (wa_H _ _ _ (gd_wf _ _ _ Hg1)); left).
    assert (∀ p, p ∈ dfr (core s) → p < anxt (core s)) as Hdf by apply (wa_dfr _ _ _ Hw).
    assert (∀ z, alive (core s) z → z.2 < anxt (core s)) as Hfr by apply (wa_fresh _ _ _ Hw).
    assert (∀ z, alive (core s) z → z ≠ x) as Hold. { intros z Hz ->. apply Hfr in Hz. rewrite Hx in Hz. simpl in Hz. lia. }
    eapply wp_mono; [apply (wp_destroy ch U HU)| |done]. intros [] s3 (Hc3 & He3 & Hi3).
    assert (core s3 = set_anxt (anxt (core s) + 1) (core s)) as Hcs.
    { rewrite Hc3, Hc2, Hc1. unfold destroyed, created. simpl. destruct (core s) as [oc df od un nx] eqn:Ecs; simpl in *.
      unfold set_anxt, set_occ, set_dfr. simpl. subst x. simpl. rewrite delete_insert by done. f_equal.
      apply set_eq. intros p. rewrite elem_of_difference, elem_of_singleton. split; [tauto|]. intros Hp. split; [done|].
      apply Hdf in Hp. lia. }
    assert (x.1 = c) as Hx1 by by rewrite Hx.
    assert (evx ch y (Some (AEntry c)) [OCtor (anxt (core s)) c] [ODtor x.2 x.1] (en s) (en s3)) as Hev.
    { exists v. split_and!; [|rewrite Hv2, Hx1 in He3; by rewrite Hx1|by repeat constructor]. eapply evo_trans_r; [|apply (us_evo _ _ _ Hu2)].
      by rewrite Hx in He1. }
    rewrite Hx1 in Hl. eauto.
Qed.

Lemma wp_shallow H c ctx (P : list okind → Prop) (s : S) :
  (∃ K, P (OCtor (anxt (core s)) c :: K)) → c < ncls ch → good H (core s) → ctx_ok ch H (core s) c ctx → occ (core s) !! region ch c = None →
  hot s c ctx ∨ cold s c ctx →
  wp (a_shallow ch U H c ctx)
    (λ x s', (hot s c ctx ∧ stepped H c (cand x) x s s') ∨
             (cold s c ctx ∧ stepped H c (aunst (core s)) x s s'))
    (λ y s', failed ch H P (spot s c ctx) y s s') s.
Proof.
  intros [K HK] Hc Hg Hctx Hocc Hmode. unfold a_shallow. pose proof (gd_wf _ _ _ Hg) as Hw.
  assert (∀ y s1 n g K0 L, anxt (core s) ≤ n → core s1 = set_anxt n (core s) → (∃ K1, P (K0 ++ K1) ∧ fits ch g K0 K1) →
    evx ch y g K0 L (en s) (en s1) → failed ch H P (spot s c ctx) y s s1) as Hfail.
  { intros y s1 n g K0 L Hn Hc1 (K1 & HK1 & Hf) He1. split.
    + rewrite Hc1. apply good_anxt; [done|lia].
    + rewrite Hc1. simpl. destruct Hmode as [[Hu Hl]|(Hi & Hn' & Hl)]; [|by left].
      rewrite Hu. destruct ctx as [q|]; [by left|]. right. unfold ctx_ok in Hctx.
      destruct (parent ch c) eqn:Hp; [done|]. unfold region in Hocc.
      by rewrite Hp, (pos_top _ Hwf _ Hp) in Hocc.
    + exists g, K0, K1. by eexists.
    + intros a0 [_ Hs] u Hu. rewrite Hc1 in Hu |- *. simpl in Hu.
      destruct (Hs u Hu) as (q & _ & _ & H1 & H2 & _). split; [exact H1|exact H2]. }
  eapply wp_seq; [by apply wp_new| |].
  - intros x s0 (Hx & Hc0 & He0 & Hi0).
    eapply wp_seq; [by eapply (wp_entry H c ctx s s0 x)| |].
    2: { intros y s1 (Hc1 & Hl & L & He1). eapply (Hfail y s1 _ _ [OCtor (anxt (core s)) c]); [|exact Hc1| |exact He1]; [lia|].
         exists K. split; [done|]. by exists (anxt (core s)), []. }
    intros [] s1 (Hc1 & He1 & Hi1). rewrite Hi0 in Hi1. rewrite Hc0 in Hc1.
    pose proof (good_created _ _ _ _ Hg Hctx Hocc Hc) as Hg1. rewrite <-Hx, <-Hc1 in Hg1.
    assert (x.1 = c) as Hx1 by by rewrite Hx.
    assert (alive (core s1) x) as Hxa by (apply (wa_H _ _ _ (gd_wf _ _ _ Hg1)); left).
    assert (x ∉ ord (core s1)) as Hxo.
    { rewrite Hc1. simpl. intros Hin. apply (wa_ord _ _ _ Hw) in Hin as [Hin _].
      apply (wa_fresh _ _ _ Hw) in Hin. rewrite Hx in Hin. simpl in Hin. lia. }
    unfold a_add. apply wp_bind, wp_bind.
    eapply (wp_mono _ (λ _ s', core s' = enter1 (core s) c ∧ en s' = en s1) _ (λ _ _, False)); [| |done].
    { rewrite Hx1. destruct (is_leaf ch c) eqn:Hl.
      - apply wp_on_core. simpl. split; [|done]. rewrite Hc1. unfold enter1, created. simpl. rewrite Hl, Hx. done.
      - apply wp_ret. split; [|done]. rewrite Hc1. unfold enter1, created. rewrite Hl, Hx. done. }
    intros [] s2 [Hc2 Hv2].
    assert (good (x :: H) (core s2)) as Hg2.
    { rewrite Hc2. destruct (is_leaf ch c) eqn:Hl.
      - replace (enter1 (core s) c) with (set_ord (ord (core s1) ++ [x]) (core s1)).
        + apply good_listed; [done|done|by rewrite Hx1|done].
        + rewrite Hc1. unfold enter1, created. simpl. by rewrite Hl, Hx.
      - replace (enter1 (core s) c) with (core s1); [done|]. rewrite Hc1. unfold enter1, created.
        simpl. by rewrite Hl, Hx. }
    apply wp_bind, wp_gets. unfold id. fold (cand x). rewrite Hv2, Hi1, Hx1.
    assert (aunst (core s2) = aunst (core s)) as Hu2 by by rewrite Hc2.
    rewrite Hu2.
    assert (ctx_ok ch H (core s) c ctx → ∀ o, ctx = Some o → o ∈ H) as HctxH.
    { unfold ctx_ok. intros Hok o ->. destruct (parent ch c); [|done]. tauto. }
    destruct Hmode as [[Hu Hl]|(Hi & Hn & Hl)].
    + assert (ico (en s) || bool_decide (pos ch c + 1 = nreg_ctx ch (parent ch c))
        && bool_decide (aunst (core s) = ctx) = true) as ->.
      { destruct Hl as [->|Hl]; [done|]. rewrite (bool_decide_true _ Hl), (bool_decide_true _ Hu).
        apply orb_true_r. }
      apply wp_bind, wp_on_env. 
      assert (∀ o, aunst (core s2) = Some o → busy ch (x :: H) (set_aunst (cand x) (core s2)) o = true) as Hbo.
      { intros o Ho. apply busy_true. do 3 right. right. apply HctxH; [done|]. congruence. }
      assert (alive_opt ch (core s2) (cand x)) as Hao.
      { unfold cand. destruct (is_leaf ch x.1); [done|]. simpl. apply (wa_H _ _ _ (gd_wf _ _ _ Hg2)). left. }
      eapply wp_mono; [apply wp_set_unst; cbn [core]; [done|exact Hbo]| |done]. simpl. intros [] s3 ->.
      apply wp_ret. left. split; [by split|]. split; simpl; try done.
      * by rewrite Hc2.
      * apply good_set_unst'; try done. unfold cand. intros z Hz. destruct (is_leaf ch x.1) eqn:E; [done|].
        by injection Hz as <-.
      * rewrite Hv2. eapply evo_trans_r; [exact He1|]. by apply evo_same.
    + assert (ico (en s) || bool_decide (pos ch c + 1 = nreg_ctx ch (parent ch c))
        && bool_decide (aunst (core s) = ctx) = false) as ->.
      { rewrite Hi. simpl. apply andb_false_iff. rewrite !bool_decide_eq_false.
        destruct (decide (pos ch c + 1 = nreg_ctx ch (parent ch c))); [|by left].
        destruct (decide (aunst (core s) = ctx)); [|by right]. by destruct Hl. }
      apply wp_ret, wp_ret. right. split; [done|]. split; try done.
      * by rewrite Hv2.
      * by rewrite Hv2, Hi1.
  - intros y s1 (g & n & L & Hg1 & Hn & Hc1 & He1). eapply (Hfail y s1 n g []); [done|done| |exact He1]. eexists. split; [exact HK|].
    destruct Hg1 as [->| ->]; [done|]. by eexists _, _.
Qed.

(** ** A state with everything inside *)
Record built (H : list aid) (path : list cls) (d : init) (u : option aid) (s s' : S) : Prop := {
  bl_tree : ∃ cs ks, builds ch (anxt (core s)) path d cs ks ∧
    core s' = set_aunst u (enter cs (core s)) ∧ evo ks (en s) (en s');
  bl_good : good H (core s');
  bl_ico : ico (en s') = false;
  bl_keep r x : occ (core s) !! r = Some x → occ (core s') !! r = Some x;
  bl_full : occ (core s') !! region ch (first path d) ≠ None;
  bl_new z k : vacant ch (core s') z k → vacant ch (core s) z k;
  bl_frame z k : vacant ch (core s) z k → region ch (first path d) ≠ (Some z.1, k) → vacant ch (core s') z k }.

Definition hist_d (d : init) : bool := match d with IState _ => false | _ => true end.
Definition lvl (c : cls) : nat := match parent ch c with None => 0 | Some q => q + 1 end.
Definition need (path : list cls) (d : init) : nat :=
  2 * (ncls ch - lvl (first path d)) -
  (match path with [] => if hist_d d then 0 else 1 | _ => 1 end).

Lemma lvl_le c : lvl c ≤ c.
Proof. unfold lvl. destruct (parent ch c) as [q|] eqn:E; [|lia]. apply (parent_lt _ Hwf) in E. lia. Qed.

(** Every entry can be completed. *)
Definition plan (n : ptr) (path : list cls) (d : init) (ks : list okind) : Prop :=
  ∃ cs, builds ch n path d cs ks.
Definition plan_all (n : ptr) (its : list (list cls * init)) (ks : list okind) : Prop :=
  ∃ cs, builds_all ch n its cs ks.
Lemma plan_total n path d : valid ch path d → ∃ ks, plan n path d ks.
Proof.
  remember (need path d) as m eqn:Hm. revert n path d Hm. induction (lt_wf m) as [m _ IH].
  intros n path d -> Hv.
  pose proof (valid_first ch Hwf _ _ Hv) as Hdecl. pose proof (lvl_le (first path d)) as Hlvl.
  assert (∀ c its, (∀ k p i, its !! k = Some (p, i) → valid ch p i ∧ region ch (first p i) = (Some c, k)) →
    2 * (ncls ch - (c + 1)) < need path d → ∀ j n, ∃ ks, plan_all n (drop j its) ks) as Hall.
  { intros c its Hits Hlt. assert (∀ j n l, l = drop j its → ∃ ks, plan_all n l ks) as Hl; [|eauto].
    intros j n' l. revert j n'. induction l as [|[p i] l IHl]; intros j n' Hl.
    - exists [], []. constructor.
    - assert (its !! j = Some (p, i)) as Hj.
      { rewrite <-(Nat.add_0_r j), <-lookup_drop, <-Hl. done. }
      destruct (Hits _ _ _ Hj) as [Hvi Hr].
      destruct (IH (need p i)) with (n := n') (path := p) (d := i) as (ks & cs & Hb); [|done|done|].
      + unfold region in Hr. injection Hr as Hp _. unfold need at 1, lvl. rewrite Hp. lia.
      + destruct (IHl (Datatypes.S j) (n' + length cs)) as (ks' & cs' & Hb').
        { rewrite <-Nat.add_1_r, <-drop_drop, <-Hl. done. }
        exists (ks ++ ks'), (cs ++ cs'). by constructor. }
  destruct path as [|c path].
  - destruct d as [c|c|c].
    + destruct (defaults_valid ch Hwf c) as [Hlen Hits].
      destruct (Hall c (defaults ch c) Hits) with (j := 0) (n := n + 1) as (ks & cs & Hb).
      { unfold need, first in *. simpl in *. lia. }
      rewrite drop_0 in Hb. exists (OCtor n c :: ks), (c :: cs). by constructor.
    + destruct (IH (need [] (IState c))) with (n := n) (path := @nil cls) (d := IState c) as (ks & cs & Hb).
      * unfold need, first in *. simpl in *. lia.
      * done.
      * eapply shallow_valid; [apply Hv|done].
      * exists (OHistS c c :: ks), cs. by constructor.
    + destruct (IH (need [] (IState c))) with (n := n) (path := @nil cls) (d := IState c) as (ks & cs & Hb).
      * unfold need, first in *. simpl in *. lia.
      * done.
      * pose proof (deep_valid ch Hwf c c) as Hd. rewrite (path_below_refl ch Hwf) in Hd.
        apply Hd; [apply Hv|by constructor].
      * exists (OHistD c c :: ks), cs. constructor; rewrite ?(path_below_refl ch Hwf); [by constructor|done|done].
  - destruct (detour_valid ch Hwf _ _ _ Hv) as [Hlen Hits].
    destruct (Hall c (detour ch c path d) Hits) with (j := 0) (n := n + 1) as (ks & cs & Hb).
    { unfold need, first in *. simpl in *. lia. }
    rewrite drop_0 in Hb. exists (OCtor n c :: ks), (c :: cs). by constructor.
Qed.
Lemma plan_all_total n its q j :
  (∀ k p i, its !! k = Some (p, i) → valid ch p i ∧ region ch (first p i) = (Some q, j + k)) →
  ∃ ks, plan_all n its ks.
Proof.
  revert n j. induction its as [|[p i] its IH]; intros n j Hits; [exists [], []; constructor|].
  destruct (Hits 0 p i eq_refl) as [Hv _]. destruct (plan_total n p i Hv) as (ks & cs & Hb).
  destruct (IH (n + length cs) (Datatypes.S j)) as (ks' & cs' & Hb').
  - intros k p' i' Hk. replace (Datatypes.S j + k) with (j + Datatypes.S k) by lia. by apply Hits.
  - exists (ks ++ ks'), (cs ++ cs'). by constructor.
Qed.

(** What the recursive calls have to provide. *)
Definition build_ok (n : nat) : Prop := ∀ H path d ctx (s : S),
  need path d ≤ n → valid ch path d → hist_ok ch (en s) →
  good H (core s) → ctx_ok ch H (core s) (first path d) ctx →
  occ (core s) !! region ch (first path d) = None →
  hot s (first path d) ctx ∨ cold s (first path d) ctx →
  wp (a_construct ch U n H path d ctx)
    (λ _ s', (hot s (first path d) ctx ∧ built H path d None s s') ∨
             (cold s (first path d) ctx ∧ built H path d (aunst (core s)) s s'))
    (λ y s', failed ch H (plan (anxt (core s)) path d) (spot s (first path d) ctx) y s s') s.

Lemma occ_enter_other cs a r : (∀ c, c ∈ cs → region ch c ≠ r) → occ (enter cs a) !! r = occ a !! r.
Proof.
  revert a. induction cs as [|c cs IH]; intros a Hr; [done|]. simpl.
  change (fold_left enter1 cs) with (enter cs). rewrite IH.
  - simpl. apply lookup_insert_ne. apply Hr. left.
  - intros c' Hc'. apply Hr. by right.
Qed.

(** The regions of [x] from [j] on. *)
Record filled_in (x : aid) (H : list aid) (its : list (list cls * init)) (u : option aid) (s s' : S) : Prop := {
  fl_tree : ∃ cs ks, builds_all ch (anxt (core s)) its cs ks ∧
    core s' = set_aunst u (enter cs (core s)) ∧ evo ks (en s) (en s');
  fl_good' : good (x :: H) (core s');
  fl_ico : ico (en s') = false;
  fl_keep r y : occ (core s) !! r = Some y → occ (core s') !! r = Some y;
  fl_new z k : vacant ch (core s') z k → vacant ch (core s) z k }.

Lemma wp_inner n x H its j (s : S) :
  build_ok n → j + length its = nreg ch x.1 →
  (∀ k p i, its !! k = Some (p, i) → valid ch p i ∧ region ch (first p i) = (Some x.1, j + k)) →
  2 * (ncls ch - (x.1 + 1)) ≤ n →
  hist_ok ch (en s) → good (x :: H) (core s) → (∀ k, j ≤ k → occ (core s) !! (Some x.1, k) = None) →
  ico (en s) = false → aunst (core s) ≠ None →
  wp (iter (λ pd : list cls * init, a_construct ch U n (x :: H) pd.1 pd.2 (Some x)) its)
    (λ _ s', filled_in x H its
      (if bool_decide (aunst (core s) = Some x ∧ its ≠ []) then None else aunst (core s)) s s' ∧
      (∀ k, j ≤ k < nreg ch x.1 → occ (core s') !! (Some x.1, k) ≠ None) ∧
      ∀ z k, vacant ch (core s) z k → z.1 ≠ x.1 → vacant ch (core s') z k)
    (λ y s', failed ch (x :: H) (plan_all (anxt (core s)) its) (ispot s x j) y s s') s.
Proof.
  intros HB. revert j s. induction its as [|[p d] its IH]; intros j s Hlen Hits Hn Hh Hg Hemp Hi Hu.
  - apply wp_iter_nil. rewrite bool_decide_false by tauto. split; [|split; [simpl in Hlen; lia|done]]. split; try done.
    exists [], []. split_and!; [constructor| |apply evo_refl]. simpl. by rewrite set_aunst_same.
  - destruct (Hits 0 p d eq_refl) as [Hv Hr]. rewrite Nat.add_0_r in Hr. simpl in Hlen.
    assert (parent ch (first p d) = Some x.1 ∧ pos ch (first p d) = j) as [Hp Hpos].
    { unfold region in Hr. by injection Hr. }
    assert (alive (core s) x) as Hxa by (apply (wa_H _ _ _ (gd_wf _ _ _ Hg)); left).
    apply wp_iter_cons. simpl.
    assert ((hot s (first p d) (Some x) ∧ aunst (core s) = Some x ∧ its = []) ∨
      (cold s (first p d) (Some x) ∧ ¬ (aunst (core s) = Some x ∧ its = []))) as Hmode.
    { unfold hot, cold. rewrite Hp. cbn [nreg_ctx]. rewrite Hpos.
      destruct (decide (aunst (core s) = Some x)) as [Hux|Hux].
      - destruct its as [|it its']; [left|right].
        + simpl in Hlen. split_and!; try done. right. lia.
        + simpl in Hlen. split_and!; try done; [intros [? _]; lia|by intros [_ ?]].
      - right. split_and!; try done; by intros [? ?]. }
    eapply wp_mono; [apply (HB (x :: H) p d (Some x) s)| |].
    + unfold need, lvl. rewrite Hp. lia.
    + done.
    + done.
    + done.
    + unfold ctx_ok. rewrite Hp. split_and!; [done|done|left].
    + rewrite Hr. by apply Hemp.
    + destruct Hmode as [[? _]|[? _]]; tauto.
    + intros [] s1 Hpost.
      destruct Hmode as [(Hhot & Hux & ->)|[Hcold Hnot]].
      * assert (built (x :: H) p d None s s1) as Hb.
        { destruct Hpost as [[_ ?]|[(_ & _ & Hc) _]]; [done|]. destruct Hhot as [? Hhot]. exfalso. apply Hc.
          split; [|done]. destruct Hhot as [|?]; [congruence|done]. }
        destruct Hb as [(cs & ks & B1 & B2 & B3) B4 B5 B6 B7 B8 B9].
        apply wp_iter_nil. rewrite bool_decide_true by done. split_and!; [split|..]; try done.
        -- exists (cs ++ []), (ks ++ []). split_and!; [econstructor; [done|constructor]|by rewrite app_nil_r..].
        -- intros k Hk. rewrite Hr in B7. simpl in Hlen. by replace k with j by lia.
        -- intros z k Hz Hne. apply B9; [done|]. rewrite Hr. congruence.
      * assert (built (x :: H) p d (aunst (core s)) s s1) as Hb.
        { destruct Hpost as [[[Hhu Hhot] _]|[_ ?]]; [|done]. destruct Hcold as (Hc1 & Hc2 & Hc3). exfalso.
          apply Hc3. split; [|done]. destruct Hhot as [|?]; [congruence|done]. }
        destruct Hb as [(cs & ks & B1 & B2 & B3) B4 B5 B6 B7 B8 B9].
        assert (aunst (core s1) = aunst (core s)) as Hu1 by by rewrite B2.
        eapply wp_mono; [apply (IH (Datatypes.S j))| |].
        -- simpl. lia.
        -- intros k p' i Hk. replace (Datatypes.S j + k) with (j + Datatypes.S k) by lia. by apply Hits.
        -- done.
        -- by apply (evo_hist _ _ _ _ B3).
        -- done.
        -- intros k Hk. rewrite B2. simpl. rewrite occ_enter_other; [apply Hemp; lia|].
           intros c Hc Heq. pose proof (fi_inside _ _ _ (builds_filled ch Hwf _ _ _ _ _ B1 Hv) c Hc) as (c' & Hr' & Hin).
           rewrite Hr in Hr'. unfold region in Hr', Heq. injection Hr' as Hp' Hpos'. injection Heq as Hpc Hposc.
           destruct Hin as [->|Hin]; [lia|]. apply (encloses_lt ch Hwf) in Hin as Hlt.
           apply (parent_lt _ Hwf) in Hp'.
           inversion Hin as [? Heq1|? ? q1 Hq1 Hin1]; subst; [rewrite Hpc in Heq1; injection Heq1 as <-; lia|].
           assert (q1 = x.1) as -> by congruence. apply (encloses_lt ch Hwf) in Hin1. lia.
        -- done.
        -- by rewrite Hu1.
        -- intros [] s2 [[(cs' & ks' & C1 & C2 & C3) C4 C5 C6 C6'] [C7 C8]]. split_and!; [split|..].
           ++ exists (cs ++ cs'), (ks ++ ks'). split_and!.
              ** constructor; [done|]. rewrite B2 in C1. simpl in C1. by rewrite anxt_enter in C1.
              ** rewrite C2, B2. cbn [aunst set_aunst]. rewrite enter_unst, set_aunst_twice, enter_app.
                 f_equal. destruct (decide (aunst (core s) = Some x)) as [Hux|Hux].
                 --- destruct its as [|it its]; [by destruct Hnot|]. by rewrite !bool_decide_true.
                 --- rewrite !bool_decide_false by tauto. done.
              ** by eapply evo_trans.
           ++ done.
           ++ done.
           ++ intros r y Hy. by apply C6, B6.
           ++ intros z k Hz. by apply B8, C6'.
           ++ intros k Hk. destruct (decide (k = j)) as [->|Hne]; [|apply C7; lia].
              rewrite Hr in B7. destruct (occ (core s1) !! (Some x.1, j)) as [y|] eqn:Hy; [|done].
              apply C6 in Hy. by rewrite Hy.
           ++ intros z k Hz Hne. apply C8; [|done]. apply B9; [done|]. rewrite Hr. congruence.
        -- intros y s2. apply (failed_trans ch _ _ _ _ _ _ _ _ _ _ B3).
           { intros K (cs' & Hb'). exists (cs ++ cs'). constructor; [done|].
             rewrite B2 in Hb'. simpl in Hb'. by rewrite anxt_enter in Hb'. }
           intros a0 (I1 & I2 & I3). split_and!; [|done|].
           { intros z Hz. rewrite B2. simpl. rewrite anxt_enter. specialize (I1 z Hz). lia. }
           intros u Hu'. rewrite Hu1 in Hu'. destruct (I3 u Hu') as (J1 & J2 & J3 & J4). split_and!.
           ++ done.
           ++ intros z k Hz. apply (J2 z k). eapply newvac_in; [exact Hz|apply B8].
           ++ intros Hux z k Hz. assert (z = x ∧ j ≤ k) as [-> Hk].
              { apply J3; [done|]. eapply newvac_in; [exact Hz|apply B8]. }
              split; [done|]. assert (k ≠ j); [|lia]. intros ->. destruct Hz as [(_ & _ & Hz) _].
              rewrite Hr in B7. done.
           ++ intros Hux. destruct (J4 Hux) as (k & Hv1 & Hv2). exists k. split; [|done]. apply B9; [done|].
              rewrite Hr. intros Heq. apply Hux. apply (alive_unique ch (core s)); [apply Hv1|done|congruence].
    + intros y s1 [F1 F2 (g & K & K' & L' & (cs & F3) & F0 & F4) F5]. split; try done.
      2:{ intros a0 (I1 & I2 & I3). apply F5. split; [done|]. intros u Hu'.
          destruct (I3 u Hu') as (J1 & J2 & J3 & J4).
          assert (∀ k, j ≤ k < nreg ch x.1 → newvac ch a0 (core s) x k) as Hxv.
          { intros k Hk. split; [split_and!; [done|lia|apply Hemp; lia]|]. by intros [? _]. }
          exists x. split_and!; try done.
          - destruct (decide (u = x)) as [->|Hux]; [|by apply J4]. exists j. apply Hxv. lia.
          - intros Hhot z k Hz. assert (u = x ∧ its = []) as [-> ->].
            { destruct Hmode as [(_ & ? & ?)|[Hcold _]]; [split; congruence|].
              destruct Hcold as (? & ? & Hc3). exfalso. apply Hc3. destruct Hhot as [? [?|?]]; [congruence|done]. }
            destruct (J3 eq_refl z k Hz) as [-> Hk]. split; [done|]. rewrite Hpos.
            destruct Hz as [(_ & Hz & _) _]. simpl in Hlen. lia.
          - intros Hcold. destruct (decide (u = x)) as [->|Hux].
            + exists (Datatypes.S j). split; [apply Hxv|rewrite Hpos; intros Heq; injection Heq; lia].
              destruct its as [|it its']; [|simpl in Hlen; lia].
              destruct Hmode as [(Hhot & _)|[_ Hnot]]; [|by destruct Hnot].
              destruct Hcold as (? & ? & Hc3). exfalso. apply Hc3. destruct Hhot as [? [?|?]]; [congruence|done].
            + destruct (J4 Hux) as (k & Hk). exists k. split; [done|]. congruence. }
      destruct (plan_all_total (anxt (core s) + length cs) its x.1 (Datatypes.S j)) as (ks' & cs' & Hb').
      { intros k p' i Hk. replace (Datatypes.S j + k) with (j + Datatypes.S k) by lia. by apply Hits. }
      exists g, K, (K' ++ ks'), L'. split_and!; [|by apply fits_post|done]. exists (cs ++ cs'). rewrite app_assoc. by constructor.
Qed.

(** Dropping the reference held while the inner states were entered. *)
Lemma failed_drop H x P (B : acore → Prop) y (s s1 : S) :
  0 < nreg ch x.1 → (∀ a0, B a0 → ∃ k, k < nreg ch x.1 ∧ ¬ vacant ch a0 x k) →
  failed ch (x :: H) P B y s s1 →
  wp (drop_ ch U H x) (λ _ s', failed ch H P B y s s') (λ _ _, False) s1.
Proof.
  intros Hpos HB [F1 F2 (g & K & K' & L' & FP & FF & F3) F4].
  assert (alive (core s1) x) as Hxa by (apply (wa_H _ _ _ (gd_wf _ _ _ F1)); left).
  eapply wp_mono; [apply (wp_drop_ ch U Hwf HU); [done|]| |done].
  { done. }
  intros [] s2 [D1 D2 D3 (L2 & D4 & D4') D5 D6 D7 D8 D9]. split.
  - done.
  - rewrite D2. destruct F2 as [F2|F2]; [by left|]. right.
    destruct (occ (core s2) !! (None, 0)) as [z|] eqn:Hz; [|done].
    pose proof (wa_reg _ _ _ (gd_wf _ _ _ D1) _ _ Hz) as Hr.
    assert (alive (core s1) z) as Hza by (apply D6; unfold Abs.alive; by rewrite Hr).
    unfold Abs.alive in Hza. rewrite Hr in Hza. congruence.
  - exists g, K, K'. eexists. split_and!; [done..|]. by eapply evx_after.
  - intros a0 HB0. pose proof (F4 a0 HB0) as Hm. destruct (busy ch H (core s1) x) eqn:Hb; [by rewrite D7|].
    eapply (marked_shrink ch H); [exact (wa_reg _ _ _ (gd_wf _ _ _ F1))|exact (gd_wf _ _ _ D1)|done|done|exact D9| |done].
    intros u Hu. destruct (Hm u Hu) as [_ Hall]. destruct (HB a0 HB0) as (k & Hk & Hv).
    apply (Hall x k). split; [|done]. split_and!; [done|done|].
    destruct (occ (core s1) !! (Some x.1, k)) as [w|] eqn:E; [|done]. exfalso.
    enough (busy ch H (core s1) x = true) by congruence. apply busy_true. left. rewrite kids_nil.
    intros Hn. specialize (Hn k Hk). congruence.
Qed.

Lemma bind_ext {A B} (m : M S A) (k k' : A → M S B) s :
  (∀ a s', k a s' = k' a s') → bind m k s = bind m k' s.
Proof. intros Hk. unfold bind. by destruct (m s) as [[] s']. Qed.
Lemma finally_ext {A} (m m' : M S A) c s : m s = m' s → finally m c s = finally m' c s.
Proof. intros Hm. unfold finally. by rewrite Hm. Qed.

Lemma iter_detour n H x c path d (s : S) :
  (iter (λ i, a_construct ch U n H [] i x) (take (pos ch (first path d)) (inner ch c)) ;!
   a_construct ch U n H path d x ;!
   iter (λ i, a_construct ch U n H [] i x) (drop (Datatypes.S (pos ch (first path d))) (inner ch c))) s =
  iter (λ pd : list cls * init, a_construct ch U n H pd.1 pd.2 x) (detour ch c path d) s.
Proof.
  unfold detour. rewrite !iter_app. unfold bind at 1 3.
  assert (∀ l (s : S), iter (λ pd : list cls * init, a_construct ch U n H pd.1 pd.2 x) (map (λ i, ([], i)) l) s =
    iter (λ i, a_construct ch U n H [] i x) l s) as Hl.
  { induction l as [|i l IH]; intros s0; [done|]. simpl. unfold bind.
    destruct (a_construct ch U n H [] i x s0) as [[] s1]; try done. }
  rewrite Hl. destruct (iter _ _ s) as [[] s1]; try done. simpl. unfold bind.
  destruct (a_construct ch U n H path d x s1) as [[] s2]; done.
Qed.

(** One state, then its inner states. *)
Lemma wp_node n H c its ctx path d (s : S) :
  build_ok n → c < ncls ch → 2 * (ncls ch - (c + 1)) ≤ n → hist_ok ch (en s) →
  length its = nreg ch c →
  (∀ k p i, its !! k = Some (p, i) → valid ch p i ∧ region ch (first p i) = (Some c, k)) →
  (∀ m cs ks, builds_all ch (m + 1) its cs ks → builds ch m path d (c :: cs) (OCtor m c :: ks)) →
  region ch (first path d) = region ch c →
  good H (core s) → ctx_ok ch H (core s) c ctx → occ (core s) !! region ch c = None →
  hot s c ctx ∨ cold s c ctx →
  wp (let! x := a_shallow ch U H c ctx in
      finally
        (iter (λ pd : list cls * init, a_construct ch U n (x :: H) pd.1 pd.2 (Some x)) its)
        (drop_ ch U H x))
    (λ _ s', (hot s c ctx ∧ built H path d None s s') ∨
             (cold s c ctx ∧ built H path d (aunst (core s)) s s'))
    (λ y s', failed ch H (plan (anxt (core s)) path d) (spot s c ctx) y s s') s.
Proof.
  intros HB Hc Hn Hh Hlen Hits Hbuild Hfirst Hg Hctx Hocc Hmode. pose proof (gd_wf _ _ _ Hg) as Hw.
  assert (∀ ks, plan_all (anxt (core s) + 1) its ks →
    plan (anxt (core s)) path d ([OCtor (anxt (core s)) c] ++ ks)) as Hplan.
  { intros ks (cs & Hb). exists (c :: cs). by apply Hbuild. }
  eapply wp_seq; [eapply (wp_shallow _ _ _ (plan (anxt (core s)) path d)); try done| |done].
  { destruct (plan_all_total (anxt (core s) + 1) its c 0) as (ks & Hks); [done|]. eexists. by apply (Hplan ks). }
  intros x s1 Hst. apply wp_finally.
  assert (∃ u1 u, stepped H c u1 x s s1 ∧
    ((hot s c ctx ∧ u1 = cand x ∧ u = None) ∨ (cold s c ctx ∧ u1 = aunst (core s) ∧ u = aunst (core s))))
    as (u1 & u & [S1 S2 S3 S4 S5] & Hu).
  { destruct Hst as [[? ?]|[? ?]]; [exists (cand x), None|exists (aunst (core s)), (aunst (core s))]; tauto. }
  assert (x.1 = c) as Hx1 by by rewrite S1.
  assert (alive (core s1) x) as Hxa by (apply (wa_H _ _ _ (gd_wf _ _ _ S3)); left).
  assert (∀ r y, occ (core s) !! r = Some y → occ (core s1) !! r = Some y) as Hkeep.
  { intros r y Hy. rewrite S2. simpl. rewrite lookup_insert_ne; [done|]. congruence. }
  assert (∀ s2 cs ks, core s2 = set_aunst u (enter cs (core s1)) → builds_all ch (anxt (core s1)) its cs ks →
    evo ks (en s1) (en s2) → good (x :: H) (core s2) → ico (en s2) = false →
    (∀ r y, occ (core s1) !! r = Some y → occ (core s2) !! r = Some y) →
    busy ch H (core s2) x = true →
    (∀ z k, vacant ch (core s2) z k → vacant ch (core s1) z k ∧ z.1 ≠ x.1) →
    (∀ z k, vacant ch (core s1) z k → z.1 ≠ x.1 → vacant ch (core s2) z k) →
    wp (drop_ ch U H x) (λ _ s', (hot s c ctx ∧ built H path d None s s') ∨
             (cold s c ctx ∧ built H path d (aunst (core s)) s s')) (λ y s', failed ch H (plan (anxt (core s)) path d) (spot s c ctx) y s s') s2) as Hend.
  { intros s2 cs ks E1 E2 E3 E4 E5 E6 E7 E8 E9.
    assert (alive (core s2) x) as Hxa2 by (apply (wa_H _ _ _ (gd_wf _ _ _ E4)); left).
    eapply wp_mono; [by apply (wp_drop_ ch U Hwf HU)| |done].
    intros [] s3 [D1 D2 D3 D4 D5 D6 D7 D8 _]. specialize (D7 E7). subst s3.
    assert (built H path d u s s2) as Hbl.
    { split.
      - exists (c :: cs), (OCtor (anxt (core s)) c :: ks). split_and!.
        + apply Hbuild. by rewrite S2 in E2.
        + rewrite E1, S2. simpl. change (fold_left enter1 cs) with (enter cs).
          by rewrite enter_unst, set_aunst_twice.
        + change (OCtor ?a ?b :: ?l) with ([OCtor a b] ++ l). eapply evo_trans; [|exact E3].
          rewrite S1 in S4. exact S4.
      - done.
      - done.
      - intros r y Hy. by apply E6, Hkeep.
      - rewrite Hfirst, <-Hx1. unfold Abs.alive in Hxa. apply E6 in Hxa. by rewrite Hxa.
      - intros z k Hz. apply E8 in Hz as [Hz Hne]. rewrite S2, vacant_unst in Hz.
        apply vacant_created in Hz as [[-> _]|[Hz _]]; [|done|done|exact (wa_reg _ _ _ Hw)].
        by destruct Hne.
      - intros z k Hz Hr. apply E9.
        + rewrite S2, vacant_unst. apply created_vacant; [done|done|]. by rewrite <-Hfirst.
        + intros Heq. destruct Hz as [Hz _]. unfold Abs.alive in Hz. rewrite Heq, Hx1 in Hz. congruence. }
    destruct Hu as [(Hh' & _ & ->)|(Hc' & _ & ->)]; tauto. }
  destruct (is_leaf ch c) eqn:Hleaf.
  - assert (its = []) as ->.
    { unfold is_leaf in Hleaf. apply bool_decide_eq_true in Hleaf. destruct its; [done|]. simpl in Hlen. lia. }
    apply wp_iter_nil. apply (Hend s1 [] []).
    + simpl. rewrite S2. assert (u1 = u) as ->; [|done].
      destruct Hu as [(_ & -> & ->)|(_ & -> & ->)]; [|done]. unfold cand. by rewrite Hx1, Hleaf.
    + constructor.
    + apply evo_refl.
    + done.
    + done.
    + done.
    + apply busy_true. right. left. rewrite S2. simpl. rewrite Hleaf, S1. apply elem_of_app. right. left.
    + intros z k Hz. split; [done|]. intros Heq. destruct Hz as (_ & Hz & _). rewrite Heq, Hx1 in Hz.
      simpl in Hlen. lia.
    + done.
  - assert (its ≠ []) as Hne.
    { intros ->. unfold is_leaf in Hleaf. apply bool_decide_eq_false in Hleaf. simpl in Hlen. lia. }
    assert (aunst (core s1) = u1) as Hu1 by by rewrite S2.
    eapply wp_mono; [eapply (wp_inner n x H its 0)| |].
    + done.
    + by rewrite Hx1.
    + rewrite Hx1. done.
    + by rewrite Hx1.
    + by apply (evo_hist _ _ _ _ S4).
    + done.
    + intros k _. rewrite S2. simpl. pose proof (created_kids_nil ch Hwf _ _ c Hw Hocc) as Hk.
      rewrite lookup_insert_ne.
      * destruct (occ (core s) !! (Some x.1, k)) as [z|] eqn:Hz; [|done].
        pose proof (wa_reg _ _ _ Hw _ _ Hz) as Hr. rewrite Hx1 in Hr.
        assert (alive (core s) z) as Hza by (unfold Abs.alive; rewrite Hr, <-Hx1; done).
        unfold region in Hr. injection Hr as Hp _.
        destruct (wa_par _ _ _ Hw _ _ Hza Hp) as [pq Hq]. unfold Abs.alive in Hq. simpl in Hq. congruence.
      * unfold region. rewrite Hx1. intros Heq. injection Heq as Heq _. apply (parent_lt _ Hwf) in Heq. lia.
    + done.
    + rewrite Hu1. destruct Hu as [(_ & -> & _)|((_ & Hn' & _) & -> & _)]; [|done].
      unfold cand. by rewrite Hx1, Hleaf.
    + intros [] s2 [[(cs & ks & C1 & C2 & C3) C4 C5 C6 C6'] [C7 C8]].
      apply (Hend s2 cs ks); try done.
      * rewrite C2. f_equal. rewrite Hu1. destruct Hu as [(Hh' & -> & ->)|(Hc' & -> & ->)].
        -- unfold cand. by rewrite Hx1, Hleaf, bool_decide_true.
        -- rewrite bool_decide_false; [done|]. intros [Heq _].
           pose proof (wa_unst _ _ _ Hw _ Heq) as Hxold. unfold Abs.alive in Hxold. rewrite Hx1 in Hxold. congruence.
      * apply busy_true. left. rewrite kids_nil. intros Hk.
        assert (0 < nreg ch x.1) as Hpos.
        { rewrite Hx1. unfold is_leaf in Hleaf. apply bool_decide_eq_false in Hleaf. lia. }
        apply (C7 0); [lia|]. by apply Hk.
      * intros z k Hz. split; [by apply C6'|]. intros Heq. destruct Hz as (_ & Hz1 & Hz2). rewrite Heq in Hz1, Hz2.
        apply (C7 k); [lia|done].
    + assert (0 < nreg ch x.1) as Hpos.
      { rewrite Hx1. unfold is_leaf in Hleaf. apply bool_decide_eq_false in Hleaf. lia. }
      intros y s2 Hf.
      eapply wp_mono; [eapply (failed_drop _ _ _ (ispot s1 x 0) y s1 s2)| |done].
      { done. }
      { intros a0 (_ & Ha0 & _). exists 0. split; [done|]. by intros [? _]. }
      { exact Hf. }
      intros [] s3. rewrite S1 in S4. apply (failed_trans ch _ _ _ _ _ _ _ _ _ _ S4); [rewrite S2; exact Hplan|].
      intros a0 [I1 I2]. 
      assert (¬ alive a0 x) as Hnx. { intros Hin. apply I1 in Hin. rewrite S1 in Hin. simpl in Hin. lia. }
      assert (∀ z k, newvac ch a0 (core s1) z k →
        z = x ∨ (newvac ch a0 (core s) z k ∧ region ch c ≠ (Some z.1, k))) as Hnv.
      { intros z k [Hz1 Hz2]. rewrite S2, vacant_unst in Hz1.
        apply vacant_created in Hz1 as [[-> _]|[Hz1 Hz3]]; [left; by rewrite S1|by right|done|exact (wa_reg _ _ _ Hw)]. }
      split_and!; [|done|].
      { intros z Hz. specialize (I1 z Hz). rewrite S2. simpl. lia. }
      intros u0 Hu0. rewrite Hu1 in Hu0. destruct Hu as [(Hh' & -> & ->)|(Hc' & -> & ->)].
      * unfold cand in Hu0. rewrite Hx1, Hleaf in Hu0. injection Hu0 as <-.
        assert (∀ z k, newvac ch a0 (core s1) z k → z = x) as Hx.
        { intros z k [?|[Hz Hzr]]%Hnv; [done|]. exfalso. destruct (aunst (core s)) as [w|] eqn:Ew.
          - destruct (I2 w eq_refl) as (q & Hq & _ & _ & _ & Hall & _). destruct (Hall Hh' z k Hz) as [-> ->].
            apply Hzr. unfold region. f_equal. unfold ctx_ok in Hctx. rewrite Hq in Hctx.
            destruct (parent ch c); [|done]. f_equal. symmetry. tauto.
          - destruct Hh' as [Hh' _]. rewrite Ew in Hh'. subst ctx. unfold ctx_ok in Hctx.
            destruct (parent ch c) eqn:Hp; [done|]. destruct Hz as [(Hz & _) _].
            assert (occ (core s) !! (None, 0) = None) as Hno.
            { unfold region in Hocc. by rewrite Hp, (pos_top _ Hwf _ Hp) in Hocc. }
            destruct (alive_under_root ch Hwf H _ _ Hw Hz) as (w & Hwr & _). congruence. }
        split_and!.
        -- by left.
        -- intros z k ->%Hx. by left.
        -- intros _ z k ->%Hx. split; [done|lia].
        -- done.
      * destruct (I2 u0 Hu0) as (q & Hq & J1 & _ & J2 & _ & J3).
        assert (u0 ≠ x) as Hne'.
        { intros ->. pose proof (wa_unst _ _ _ Hw _ Hu0) as Hxold. unfold Abs.alive in Hxold. rewrite Hx1 in Hxold. congruence. }
        assert (parent ch c = Some q.1) as Hp.
        { unfold ctx_ok in Hctx. rewrite Hq in Hctx. destruct (parent ch c); [|done]. f_equal. symmetry. tauto. }
        assert (within ch u0.1 x.1) as Hin.
        { right. rewrite Hx1. destruct J1 as [J1|J1]; [rewrite <-J1, <-Hp; constructor|by eapply encloses_step]. }
        split_and!.
        -- done.
        -- intros z k [->|[Hz _]]%Hnv; [done|by eapply J2].
        -- done.
        -- intros _. destruct (J3 Hc') as (k & [Hv1 Hv2] & Hk). exists k. split; [|done].
           rewrite S2, vacant_unst. apply created_vacant; [done|done|]. unfold region. rewrite Hp.
           intros Heq. injection Heq as Heq <-. apply Hk. f_equal. apply (alive_unique ch (core s)); [apply Hv1| |done].
           unfold ctx_ok in Hctx. rewrite Hq, Hp in Hctx. tauto.
Qed.

Lemma wp_construct n : build_ok n.
Proof.
  induction n as [|n IH]; intros H path d ctx s Hn Hv Hh Hg Hctx Hocc Hmode.
  - exfalso. pose proof (valid_first ch Hwf _ _ Hv). pose proof (lvl_le (first path d)).
    unfold need in Hn. destruct path; [destruct (hist_d d)|]; lia.
  - pose proof (valid_first ch Hwf _ _ Hv) as Hdecl. pose proof (lvl_le (first path d)) as Hlvl.
    cbn [a_construct]. destruct path as [|c path].
    + destruct d as [c|c|c].
      * destruct (defaults_valid ch Hwf c) as [Hlen Hits].
        eapply wp_eq; [|eapply (wp_node n H c (defaults ch c) ctx [] (IState c))].
        { unfold bind. destruct (a_shallow ch U H c ctx s) as [[] s1]; try done. unfold finally.
          replace (iter (λ i, a_construct ch U n (a :: H) [] i (Some a)) (inner ch c) s1) with
            (iter (λ pd : list cls * init, a_construct ch U n (a :: H) pd.1 pd.2 (Some a)) (defaults ch c) s1); [done|].
          unfold defaults. generalize (inner ch c) as l. intros l. revert s1.
          induction l as [|i l IHl]; intros s1; [done|]. simpl. unfold bind.
          destruct (a_construct ch U n (a :: H) [] i (Some a) s1) as [[] s2]; done. }
        all: try done.
        -- unfold need in Hn. unfold first in *. simpl in *. lia.
        -- intros m cs ks Hb. by constructor.
      * assert (∀ h, region ch h = region ch c →
          wp (emit (OHistS c h) ;! a_construct ch U n H [] (IState h) ctx)
          (λ _ s', (hot s c ctx ∧ built H [] (IShallow c) None s s') ∨
            (cold s c ctx ∧ built H [] (IShallow c) (aunst (core s)) s s'))
          (λ y s', failed ch H (plan (anxt (core s)) [] (IShallow c)) (spot s c ctx) y s s') s) as Hrec.
        { intros h Hr. apply wp_bind, wp_emit. cbn [en].
          set (s1 := MSt (core s) (log (OHistS c h) (en s))).
          assert (evo [OHistS c h] (en s) (en s1)) as He1 by by apply evo_log1.
          unfold first in *. simpl in *.
          assert (parent ch h = parent ch c ∧ pos ch h = pos ch c) as [Hp Hpos] by (unfold region in Hr; by injection Hr).
          assert (hot s1 h ctx ↔ hot s c ctx) as Hhot by (unfold hot; by rewrite Hp, Hpos).
          assert (cold s1 h ctx ↔ cold s c ctx) as Hcold by (unfold cold; by rewrite Hp, Hpos).
          assert (∀ a0, spot s c ctx a0 → spot s1 h ctx a0) as Hspot.
          { intros a0 [I1 I2]. split; [done|]. by setoid_rewrite Hhot; setoid_rewrite Hcold; rewrite Hpos. }
          eapply wp_mono; [apply (IH H [] (IState h) ctx s1)| |].
          - unfold need in *. unfold first in *. simpl in *. unfold lvl in *. rewrite Hp. lia.
          - eapply shallow_valid; [apply Hv|done].
          - done.
          - done.
          - unfold first. simpl. unfold ctx_ok in *. by rewrite Hp.
          - unfold first. simpl. by rewrite Hr.
          - unfold first. simpl. by rewrite Hhot, Hcold.
          - intros [] s2. unfold first. simpl. rewrite Hhot, Hcold.
            assert (∀ u, built H [] (IState h) u s1 s2 → built H [] (IShallow c) u s s2) as Hbl.
            { intros u [(cs & ks & B1 & B2 & B3) B4 B5 B6 B7 B8 B9]. split; try done.
              - exists cs, (OHistS c h :: ks). split_and!; [by constructor|done|]. by apply (evo_trans _ [_] _ _ _ _ He1).
              - unfold first in *. simpl in *. by rewrite <-Hr.
              - intros z k Hz. unfold first in *. simpl in *. rewrite <-Hr. by apply B9. }
            intros [[? ?]|[? ?]]; [left|right]; split; auto.
          - intros y s2. apply (failed_trans ch _ _ _ _ _ _ _ _ s1 _ He1); [|exact Hspot].
            intros K (cs & Hb). exists cs. by constructor. }
        apply wp_bind, wp_gets.
        destruct (shallow_map (en s) !! region ch c) as [[h|]|] eqn:Hm.
        -- apply Hrec. destruct Hh as [Hh _]. by apply Hh in Hm.
        -- by apply Hrec.
        -- by apply Hrec.
      * assert (∀ l, encloses ch (parent ch c) l → region ch (hd l (path_below ch (parent ch c) l)) = region ch c →
          wp (emit (OHistD c l) ;! a_construct ch U n H (path_below ch (parent ch c) l) (IState l) ctx)
          (λ _ s', (hot s c ctx ∧ built H [] (IDeep c) None s s') ∨
            (cold s c ctx ∧ built H [] (IDeep c) (aunst (core s)) s s'))
          (λ y s', failed ch H (plan (anxt (core s)) [] (IDeep c)) (spot s c ctx) y s s') s) as Hrec.
        { intros l He Hr. apply wp_bind, wp_emit. cbn [en].
          set (s1 := MSt (core s) (log (OHistD c l) (en s))).
          assert (evo [OHistD c l] (en s) (en s1)) as He1 by by apply evo_log1.
          unfold first in *. simpl in *.
          set (h := hd l (path_below ch (parent ch c) l)) in *.
          assert (first (path_below ch (parent ch c) l) (IState l) = h) as Hfi by done.
          assert (parent ch h = parent ch c ∧ pos ch h = pos ch c) as [Hp Hpos] by (unfold region in Hr; by injection Hr).
          assert (hot s1 h ctx ↔ hot s c ctx) as Hhot by (unfold hot; by rewrite Hp, Hpos).
          assert (cold s1 h ctx ↔ cold s c ctx) as Hcold by (unfold cold; by rewrite Hp, Hpos).
          assert (∀ a0, spot s c ctx a0 → spot s1 h ctx a0) as Hspot.
          { intros a0 [I1 I2]. split; [done|]. by setoid_rewrite Hhot; setoid_rewrite Hcold; rewrite Hpos. }
          eapply wp_mono; [apply (IH H (path_below ch (parent ch c) l) (IState l) ctx s1)| |].
          - unfold need in *. rewrite Hfi. unfold first in *. simpl in *. unfold lvl in *. rewrite Hp.
            destruct (path_below ch (parent ch c) l); simpl; lia.
          - apply deep_valid; [done|apply Hv|done].
          - done.
          - done.
          - rewrite Hfi. unfold ctx_ok in *. by rewrite Hp.
          - rewrite Hfi. by rewrite Hr.
          - rewrite Hfi. by rewrite Hhot, Hcold.
          - intros [] s2. rewrite Hfi. rewrite Hhot, Hcold.
            assert (∀ u, built H (path_below ch (parent ch c) l) (IState l) u s1 s2 →
              built H [] (IDeep c) u s s2) as Hbl.
            { intros u [(cs & ks & B1 & B2 & B3) B4 B5 B6 B7 B8 B9]. split; try done.
              - exists cs, (OHistD c l :: ks). split_and!; [by constructor|done|]. by apply (evo_trans _ [_] _ _ _ _ He1).
              - rewrite Hfi in B7. unfold first in *. simpl in *. by rewrite <-Hr.
              - intros z k Hz. rewrite Hfi in B9. unfold first in *. simpl in *. rewrite <-Hr. by apply B9. }
            intros [[? ?]|[? ?]]; [left|right]; split; auto.
          - intros y s2. apply (failed_trans ch _ _ _ _ _ _ _ _ s1 _ He1); [|exact Hspot].
            intros K (cs & Hb). exists cs. by constructor. }
        assert (wp (emit (OHistD c c) ;! a_construct ch U n H [] (IState c) ctx)
          (λ _ s', (hot s c ctx ∧ built H [] (IDeep c) None s s') ∨
            (cold s c ctx ∧ built H [] (IDeep c) (aunst (core s)) s s'))
          (λ y s', failed ch H (plan (anxt (core s)) [] (IDeep c)) (spot s c ctx) y s s') s) as Hdef.
        { pose proof (Hrec c) as Hc. rewrite (path_below_refl ch Hwf) in Hc. apply Hc; [by constructor|done]. }
        apply wp_bind, wp_gets.
        destruct (deep_map (en s) !! region ch c) as [[l|]|] eqn:Hm; [|done..].
        destruct Hh as [_ Hh]. apply Hh in Hm as [H1 H2]. by apply Hrec.
    + destruct (detour_valid ch Hwf _ _ _ Hv) as [Hlen Hits].
      eapply wp_eq; [|eapply (wp_node n H c (detour ch c path d) ctx (c :: path) d)].
      { apply bind_ext. intros x s1. apply finally_ext. apply iter_detour. }
      all: try done.
      * unfold need in Hn. unfold first in *. simpl in *. lia.
      * intros m cs ks Hb. by constructor.
Qed.

Lemma wp_constructs H path d ctx (s : S) :
  valid ch path d → hist_ok ch (en s) →
  good H (core s) → ctx_ok ch H (core s) (first path d) ctx →
  occ (core s) !! region ch (first path d) = None →
  hot s (first path d) ctx →
  wp (a_constructs ch U H path d ctx)
    (λ _ s', built H path d None s s')
    (λ y s', failed ch H (plan (anxt (core s)) path d) (spot s (first path d) ctx) y s s') s.
Proof.
  intros Hv Hh Hg Hctx Hocc Hhot. unfold a_constructs. eapply wp_mono.
  - apply wp_construct; try done; [|by left]. unfold need, depth_fuel. lia.
  - intros [] s' [[_ ?]|[Hc _]]; [done|]. exfalso. destruct Hhot as [H1 [H2|H2]], Hc as (H3 & H4 & H5).
    + congruence.
    + by apply H5.
  - done.
Qed.

End wp_build.
