(** * Invariants of state machines run by a scheduler *)
From stdpp Require Import gmap.
From Verif Require Import Api.
From Verif Require Export Async SchedInv.

Section sched.
Implicit Types (s : fifo req) (c : cont) (S : sched) (h : handle) (r : req).
Local Opaque view.

Lemma executing_cur s : Inv s → executing (ftr s) = cur s.
Proof. intros I. unfold executing, cur. by rewrite (i_frames _ I). Qed.

Lemma cur_last wait S : sreach wait S → ∀ r, cur (sf S) = Some r → last (started (ftr (sf S))) = Some (IUser r).
Proof.
  induction 1 as [|t S S' Hr IH Hs]; [done|]. assert (sreach wait S') as Hr' by by eapply sreach_step.
  pose proof (freach_inv _ _ (sreach_freach _ _ Hr)) as I. pose proof (freach_inv _ _ (sreach_freach _ _ Hr')) as I'.
  pose proof (no_nesting _ _ Hr) as Hn.
  destruct Hs as [s s' c Hs E _|s s' c c' e Hs E Hl _ Heff]; simpl in *.
  { intros r. unfold cur. rewrite <- (i_frames _ I'), E, (i_frames _ I). apply IH. }
  intros r Hc'. pose proof (step_cur t s s' e I Hn Hs E) as Hc. rewrite E, started_app.
  destruct e as [v i|v i|v|v|n|[r'|]| | |k|b|v i]; cbn [started]; rewrite ?app_nil_r;
    try (apply IH; congruence); try (destruct Hc; congruence); try congruence.
  - unfold cur in Hc'. rewrite <- (i_frames _ I'), E, frames_app, (i_frames _ I), Hl in Hc'. done.
  - destruct Hc as [_ Hc]. rewrite last_snoc. congruence.
Qed.
Lemma cur_snoc wait S h r : sreach wait S → cur (sf S) = Some r → handle_of r = Some h →
  ∃ R0, reqs_of h (started (ftr (sf S))) = R0 ++ [r].
Proof.
  intros Hr Hc Hh. apply (cur_last _ _ Hr) in Hc. apply last_Some in Hc as [l Hl]. exists (reqs_of h l).
  rewrite Hl, reqs_of_app. f_equal. by apply reqs_of_for.
Qed.

Lemma cheld_unshare g c : cheld (unshare g c) = cheld c.
Proof. unfold unshare. case_decide; [destruct (cproc c g)|]; done. Qed.

(** A request on a processor that has not been destroyed holds it. *)
Lemma held_while wait S h : h ≠ 0 → sreach wait S → ∀ r R0, cur (sf S) = Some r → handle_of r = Some h →
  r ≠ RCreate h → ¬ ctor_threw h (ftr (sf S)) → reqs_of h (started (ftr (sf S))) = R0 ++ [r] → RDestroy h ∉ R0 →
  cheld (scont S) = Some h.
Proof.
  intros Hh. induction 1 as [|t S S' Hr IH Hs]; [done|]. assert (sreach wait S') as Hr' by by eapply sreach_step.
  pose proof (freach_inv _ _ (sreach_freach _ _ Hr)) as I. pose proof (freach_inv _ _ (sreach_freach _ _ Hr')) as I'.
  pose proof (no_nesting _ _ Hr) as Hn. pose proof (J_reach _ _ _ Hh Hr) as HJ.
  destruct Hs as [s s' c Hs E _|s s' c c' e Hs E Hl _ Heff]; simpl in *.
  { intros r R0. unfold cur. rewrite <- (i_frames _ I'), E, (i_frames _ I). apply IH. }
  intros r R0 Hc' Hrh Hrc Ht HR Hd. pose proof (step_cur t s s' e I Hn Hs E) as Hc.
  assert (¬ ctor_threw h (ftr s)) as Ht' by (intros H; apply Ht; rewrite E; by apply threw_app).
  rewrite E, started_app in HR. destruct Heff as [_|g ->].
  2:{ destruct Hc as [_ Hc]. rewrite Hc in Hc'. injection Hc' as <-. simpl in Hrh. congruence. }
  destruct e as [v i|v i|v|v|n|[r'|]| | |k|b|v i]; cbn [started] in HR; rewrite ?app_nil_r in HR;
    try (destruct Hc; congruence); try congruence; simpl; try (eapply IH; eauto; congruence).
  - destruct i as [[]|]; simpl; eapply IH; eauto; congruence.
  - unfold cur in Hc'. rewrite <- (i_frames _ I'), E, frames_app, (i_frames _ I), Hl in Hc'. done.
  - destruct Hc as [Hc Hc'']. assert (r' = r) as -> by congruence. rewrite reqs_of_app, reqs_of_for in HR by done.
    apply app_inj_tail in HR as [HR _]. destruct HJ as [Hheld HJ]. simpl in *.
    assert (pheld (view h c) = false) as Hp.
    { destruct (pheld (view h c)); [|done]. destruct Hheld as (? & ? & _); [done|congruence]. }
    assert (cheld c ≠ Some h) as Hch by by apply cheld_view.
    pose proof (started_shape _ _ _ Hh Hr') as Hsh. simpl in Hsh.
    destruct HJ as [(H1 & _)|[[H _]|[(_ & H2 & _)|[(L & H1 & H2 & _ & H4) _]]]]; [|done|congruence|].
    { rewrite E, started_app, reqs_of_app in Hsh. cbn [started] in Hsh. rewrite reqs_of_for, H1 in Hsh by done.
      destruct Hsh as [?|(_ & L & HL & _)]; [done|]. simpl in HL. congruence. }
    destruct H4 as [(Hd2 & Hps & Hu & _)|(Hd2 & _)]; [|rewrite H1 in HR; subst R0; destruct Hd; by right].
    rewrite Hp in Hu. apply cheld_view'. rewrite <- view_proc in H2.
    destruct r as [g|g|g|g e|g|n]; simpl in Hrh; simplify_eq; simpl.
    1-3: rewrite view_op_start by done; rewrite decide_False by (rewrite view_use; lia); rewrite H2; done.
    rewrite view_destroy_start by done. rewrite decide_False by (rewrite view_use; lia). by case_decide.
  - destruct i as [[g| | | | |]|]; simpl; rewrite ?cheld_unshare; eapply IH; eauto; congruence.
Qed.
End sched.

Section inv.
Context {W : Type} (ch : handle → chart) (U : handle → user W) (init : handle → W) (code : nat → event).
Notation M := (mst W heapst).
Implicit Types (A : @asys W) (h : handle) (r : req).
Local Opaque view.

Lemma areach_sreach wait A : areach ch U init code wait A → sreach wait (asched A).
Proof. induction 1 as [|t A A' _ IH Hs]; [constructor|]. destruct Hs; simpl in *; by eapply sreach_step. Qed.

Definition shape h (E : list req) (x : slot) : Prop :=
  match E with
  | [] => x = Absent
  | _ :: L =>
    (RDestroy h ∉ L → ∃ m, x = Alive m ∧ synchronous ch U init code h L m) ∧
    (∀ L1 L2, L = L1 ++ RDestroy h :: L2 → RDestroy h ∉ L1 →
       ∃ m m', x = Dead m' ∧ synchronous ch U init code h L1 m ∧ destroy (ch h) (U h) m = (Ret tt, m'))
  end.
Lemma first_destroy h L : RDestroy h ∈ L → ∃ L1 L2, L = L1 ++ RDestroy h :: L2 ∧ RDestroy h ∉ L1.
Proof.
  induction L as [|r L IH]; intros H; [by apply elem_of_nil in H|]. destruct (decide (r = RDestroy h)) as [->|Hr].
  - exists [], L. split; [done|]. by apply not_elem_of_nil.
  - apply elem_of_cons in H as [?|H]; [done|]. destruct (IH H) as (L1 & L2 & -> & Hn). exists (r :: L1), L2.
    split; [done|]. by apply not_elem_of_cons.
Qed.

Lemma run_snoc (h : handle) ops o w rs (m : M) v m' :
  run (ch h) (U h) ops w = (rs, m) → Forall (λ r : res unit, r = Ret tt ∨ ∃ x, r = Exn x) rs → length rs = length ops →
  call (ch h) (U h) o m = (v, m') → (v = Ret tt ∨ ∃ x, v = Exn x) →
  run (ch h) (U h) (ops ++ [o]) w = (rs ++ [v], m').
Proof.
  revert w rs. induction ops as [|o' ops IH]; simpl; intros w rs Hr Hf Hl Hc Hv.
  - simplify_eq. simpl. rewrite Hc. destruct Hv as [->|[x ->]]; done.
  - destruct (call (ch h) (U h) o' w) as [r1 w1]. 
    destruct r1 as [u|x|f|].
    + destruct (run (ch h) (U h) ops w1) as [rs1 m1] eqn:E. simplify_eq. apply Forall_cons in Hf as [_ Hf].
      simpl in Hl. rewrite (IH w1 rs1); auto.
    + destruct (run (ch h) (U h) ops w1) as [rs1 m1] eqn:E. simplify_eq. apply Forall_cons in Hf as [_ Hf].
      simpl in Hl. rewrite (IH w1 rs1); auto.
    + simplify_eq. apply Forall_cons in Hf as [[?|[? ?]] _]; done.
    + simplify_eq. apply Forall_cons in Hf as [[?|[? ?]] _]; done.
Qed.
Lemma synchronous_snoc h L m r o v m' ok : synchronous ch U init code h L m → asks code r o →
  call (ch h) (U h) o m = (v, m') → ends ok v → synchronous ch U init code h (L ++ [r]) m'.
Proof.
  intros (ops & rs & H1 & H2 & H3 & H4) Ha Hc He. 
  assert (v = Ret tt ∨ ∃ x, v = Exn x) as Hv by (destruct ok; [by left|by right]).
  exists (ops ++ [o]), (rs ++ [v]). split; [apply Forall2_app; [done|]; constructor; [|done]; by destruct Ha|].
  split; [by eapply run_snoc|]. split; [by apply Forall_app; split; [|constructor]|]. rewrite !app_length. simpl. lia.
Qed.

Lemma shape_reach wait A h : h ≠ 0 → areach ch U init code wait A → ¬ ctor_threw h (ftr (sf (asched A))) →
  shape h (finished h (ftr (sf (asched A)))) (amach A h).
Proof.
  intros Hh. induction 1 as [|t A A' Hr IH Hs]; [done|]. intros Ht.
  assert (areach ch U init code wait A') as Hr' by by eapply areach_step.
  apply areach_sreach in Hr, Hr'.
  pose proof (freach_inv _ _ (sreach_freach _ _ Hr)) as I. pose proof (freach_inv _ _ (sreach_freach _ _ Hr')) as I'.
  pose proof (no_nesting _ _ Hr) as Hn. pose proof (J_reach _ _ _ Hh Hr) as HJ. pose proof (J_reach _ _ _ Hh Hr') as HJ'.
  destruct Hs as [S S' μ Hs E|S S' μ μ' e Hs E Hch]; simpl in *; [by rewrite E in *; auto|].
  assert (¬ ctor_threw h (ftr (sf S))) as Ht' by (intros H; apply Ht; rewrite E; by apply threw_app).
  specialize (IH Ht').
  assert (effects (fstack (sf S)) e (scont S) (scont S') ∧ legal (sf S) e ∧ step t (sf S) (sf S')) as (Heffs & Hl & Hst).
  { destruct Hs as [s s' c Hs E' _|s s' c c' e' Hs E' Hl _ Heff]; simpl in *.
    - rewrite E in E'. apply (f_equal length) in E'. rewrite app_length in E'. simpl in E'. lia.
    - rewrite E in E'. apply app_inj_tail in E' as [_ ->]. done. }
  pose proof (step_cur t _ _ e I Hn Hst E) as Hc.
  (* nothing ends *)
  assert (cur (sf S') = cur (sf S) → started (ftr (sf S')) = started (ftr (sf S)) → (∀ g, μ' g = μ g) →
    shape h (finished h (ftr (sf S'))) (μ' h)) as Hquiet.
  { intros H1 H2 H3. unfold finished. rewrite (executing_cur _ I'), H1, H2, H3.
    unfold finished in IH. by rewrite (executing_cur _ I) in IH. }
  (* a request ends *)
  assert (∀ ok : bool, e = (if ok then FItemRet else FThrow) → shape h (finished h (ftr (sf S'))) (μ' h)) as Hend.
  { intros ok ->. assert (cur (sf S') = None) as Hc' by (by destruct ok).
    assert (started (ftr (sf S')) = started (ftr (sf S))) as Hst'.
    { rewrite E, started_app. destruct ok; simpl; by rewrite app_nil_r. }
    destruct (cur (sf S)) as [r|] eqn:Hcr.
    2:{ apply Hquiet; [done|done|]. unfold changes in Hch. unfold cur in Hcr.
        destruct ok, (fstack (sf S)) as [|[n k [[r'|]|]] fs]; done. }
    assert ((∀ g, fate ch U init code g ok r (scont S) (scont S') (μ g) (μ' g)) ∧ scont S' = exec_end ok r (scont S) ∧
      (ok = false → r = RCreate h → ctor_threw h (ftr (sf S')))) as (Hf & Hef' & Hthr).
    { assert (scont S' = effect (fstack (sf S)) (if ok then FItemRet else FThrow) (scont S)) as Hef.
      { destruct Heffs as [_|g Hg]; [done|]. by destruct ok. }
      unfold changes in Hch. unfold cur in Hcr. unfold effect in Hef.
      destruct ok, (fstack (sf S)) as [|[n k [[r'|]|]] fs] eqn:Ef; try done; simplify_eq; split_and!; try done.
      intros _ ->. rewrite E. exists (ftr (sf S)), [], n, k, fs. split; [done|]. by rewrite (i_frames _ I). }
    specialize (Hf h). clear Hch Hquiet. unfold finished in *. rewrite (executing_cur _ I) in IH.
    rewrite (executing_cur _ I'), Hc', Hst'. simpl. rewrite Hcr in IH. simpl in IH.
    destruct HJ as [Hheld HJ]. simpl in Hheld.
    destruct (decide (handle_of r = Some h)) as [Hrh|Hrh].
    2:{ assert (μ' h = μ h) as ->; [|done]. assert (cheld (scont S) ≠ Some h) as Hno.
        { intros H. destruct Hheld as (r' & H1 & H2 & _); [by apply bool_decide_eq_true|]. congruence. }
        destruct Hf; try done; subst; done. }
    destruct (cur_snoc _ _ _ _ Hr Hcr Hrh) as [R0 HR]. rewrite HR in IH |- *. rewrite removelast_last in IH.
    destruct HJ as [(H1 & _)|[[H _]|[(H1 & H2 & H3 & _)|[(L & H1 & H2 & H2' & H4) _]]]]; [rewrite H1 in HR; by destruct R0|done| |].
    - (* the constructor *)
      rewrite H1 in HR. destruct R0 as [|? [|]]; simplify_eq/=.
      assert (cheld (scont S) ≠ Some h) as Hno by (apply cheld_view; by destruct H3 as [-> | ->]).
      split; [intros _|intros [] ? ?; done].
      destruct Hf as [|x _ ->|x Hre ->| |]; try done.
      + eexists. split; [done|]. exists [], []. repeat constructor.
      + destruct Ht; auto.
    - rewrite H1 in HR. destruct R0 as [|r0 L0]; [simplify_eq/=; done|]. simplify_eq/=.
      assert (r ≠ RCreate h) as Hrc by congruence. destruct IH as [IH1 IH2].
      destruct (decide (RDestroy h ∈ L0)) as [Hd|Hd].
      + (* destroyed before *)
        split; [intros []; apply elem_of_app; by left|]. intros L1 L2 EL HL1.
        destruct (first_destroy _ _ Hd) as (K1 & K2 & -> & HK1). destruct (IH2 _ _ eq_refl HK1) as (m & m' & Hx & H5 & H6).
        assert (L1 = K1) as ->.
        { rewrite <- app_assoc in EL. simpl in EL. clear -EL HL1 HK1. revert K1 EL HK1. induction L1 as [|y L1 IH]; intros [|z K1] EL HK1;
            simplify_eq/=; try done.
          - destruct HK1. by left.
          - destruct HL1. by left.
          - f_equal. apply IH; try done; intros ?; [destruct HL1|destruct HK1]; by right. }
        exists m, m'. split_and!; try done. rewrite Hx in Hf. inversion Hf; subst; done.
      + assert (cheld (scont S) = Some h) as Hhe.
        { eapply (held_while wait S h Hh Hr r (RCreate h :: L0)); try done. rewrite not_elem_of_cons. done. }
        assert (pheld (view h (scont S)) = true) as Hp by by apply bool_decide_eq_true. rewrite Hp in H4.
        assert (exec_end ok r (scont S) = op_end (scont S)) as Hoe.
        { destruct r; simpl in *; try done. congruence. }
        assert (view h (scont S') = view h (op_end (scont S))) as Hv by congruence.
        rewrite (view_op_end _ _ Hhe) in Hv. apply (f_equal plog) in Hv. rewrite <- view_log in Hv. simpl in Hv.
        rewrite view_use, view_proc, H2 in Hv.
        destruct (IH1 Hd) as (m & Hm & Hsy). rewrite Hm in Hf.
        destruct H4 as [(Hd2 & _ & Hu & _)|(Hd2 & _ & Hu & _)]; rewrite Hu in Hv; simpl in Hv.
        * rewrite app_nil_r in Hv.
          assert (r ≠ RDestroy h) as Hrd by (intros ->; apply Hd2, elem_of_app; right; by left).
          split; [intros _|intros L1 L2 EL; destruct Hd2; rewrite EL; apply elem_of_app; right; by left].
          inversion Hf as [| | |? o v m' x ? Hask Hcall Hend Hsv|]; subst; try done.
          destruct Hsv as [_|m2 Hbad _].
          -- eexists. split; [done|]. by eapply synchronous_snoc.
          -- rewrite Hbad in Hv. apply (f_equal length) in Hv. rewrite app_length in Hv. simpl in Hv. lia.
        * split; [done|]. intros L1 L2 EL HL1.
          assert (r = RDestroy h) as Hrd.
          { apply elem_of_app in Hd2 as [?|Hd2]; [done|]. by apply elem_of_list_singleton in Hd2. }
          assert (L1 = L0) as ->.
          { destruct L2 as [|y L2 _] using rev_ind; [by apply app_inj_tail in EL as [-> _]|].
            rewrite app_comm_cons, app_assoc in EL. apply app_inj_tail in EL as [EL _]. destruct Hd. rewrite EL.
            apply elem_of_app. right. by left. }
          inversion Hf as [| | |? o v m' x ? Hask|? ? _ _ _ Hsv]; subst; try done; [by inversion Hask|].
          destruct Hsv as [Hbad|m2 _ Hde]; [|by exists m, m2].
          rewrite Hbad in Hv. apply (f_equal length) in Hv. rewrite app_length in Hv. simpl in Hv. lia. }
  destruct e as [v i|v i|v|v|n|i| | |k|b|v i]; simpl in *; try (by apply (Hend true)); try (by apply (Hend false));
    clear Hend; try (apply Hquiet; [done|by rewrite E, started_app; simpl; rewrite app_nil_r|by apply Hch]).
  - apply Hquiet; [|by rewrite E, started_app; simpl; rewrite app_nil_r|done].
    unfold cur. rewrite <- (i_frames _ I'), E, frames_app, (i_frames _ I), Hl. done.
  - clear Hquiet. unfold finished in *. rewrite (executing_cur _ I) in IH. rewrite (executing_cur _ I'). rewrite Hch.
    destruct i as [r|]; destruct Hc as [Hc Hc']; rewrite Hc in IH; rewrite Hc'; simpl in *.
    + rewrite E, started_app, reqs_of_app. cbn [started]. case_decide as Hrh.
      * rewrite reqs_of_for by done. by rewrite removelast_last.
      * rewrite reqs_of_not by done. by rewrite app_nil_r.
    + rewrite E, started_app, reqs_of_app. simpl. by rewrite app_nil_r.
  - destruct Hc as [Hc Hc']. apply Hquiet; [congruence|by rewrite E, started_app; simpl; rewrite app_nil_r|done].
Qed.
End inv.
