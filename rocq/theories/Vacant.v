(** Regions without an inner state, and the outermost state that has such a region since a step of the
    machine began. *)
From Verif Require Export Leave.

Section vacant.
Context (ch : chart) (Hwf : wf_chart ch = true).
Notation alive := (alive ch).
Notation kids := (kids ch).

(** Region [k] of the active state [z] has no inner state. *)
Definition vacant (a : acore) (z : aid) (k : nat) : Prop :=
  alive a z ∧ k < nreg ch z.1 ∧ occ a !! (Some z.1, k) = None.
(** It had one in [a0], or [z] was not active then. *)
Definition newvac (a0 a : acore) (z : aid) (k : nat) : Prop := vacant a z k ∧ ¬ vacant a0 z k.
(** The outermost unstable state is the outermost one with a region that became vacant since [a0]. *)
Definition marked (a0 a : acore) : Prop := ∀ u, aunst a = Some u →
  (∃ k, newvac a0 a u k) ∧ ∀ z k, newvac a0 a z k → within ch u.1 z.1.

Lemma within_comparable c d e : within ch c e → within ch d e → within ch c d ∨ encloses ch (Some d) c.
Proof.
  intros Hc Hd. destruct Hc as [->|Hc].
  - destruct Hd as [->|Hd]; [left; by left|by right].
  - destruct Hd as [->|Hd]; [left; by right|].
    remember (Some c) as o eqn:Ho. induction Hc as [e|o e q Hp Hc IH].
    + inversion Hd as [e' Heq|o' e' q Hq Hd']; subst.
      * left. left. congruence.
      * assert (q = c) as -> by congruence. by right.
    + inversion Hd as [e' Heq|o' e' q' Hq Hd']; subst.
      * assert (d = q) as -> by congruence. left. by right.
      * assert (q' = q) as -> by congruence. by apply IH.
Qed.

Lemma encloses_up c d q : encloses ch (Some c) d → parent ch d = Some q → within ch c q.
Proof.
  intros He Hp. inversion He as [e' Heq|o' e' q' Hq He']; subst.
  - left. congruence.
  - right. assert (q' = q) as -> by congruence. done.
Qed.

Lemma exit_before_asym y z : exit_before ch y z → ¬ exit_before ch z y.
Proof.
  intros Hyz Hzy. pose proof (exit_before_not ch Hwf _ _ Hyz) as N1. pose proof (exit_before_not ch Hwf _ _ Hzy) as N2.
  destruct Hyz as [H|(q & c & c' & H1 & H2 & H3 & H4 & H5)]; [by apply N2; right|].
  destruct Hzy as [H|(r & d & d' & G1 & G2 & G3 & G4 & G5)]; [by apply N1; right|].
  assert (∀ q c c' r, parent ch c = Some q → parent ch c' = Some q → within ch c y → within ch c' z →
    encloses ch (Some r) y → encloses ch (Some r) z → encloses ch (Some q) r → c = c') as Hbelow.
  { clear -Hwf. intros q c c' r H1 H2 H4 H5 Ry Rz Hqr.
    destruct (path_hd ch Hwf (Some q) r Hqr) as [Hp Hin].
    set (h := hd r (path_below ch (Some q) r)) in *.
    assert (∀ w, encloses ch (Some r) w → within ch h w) as Hh.
    { intros w Hrw. right. destruct Hin as [Heq|Hin]; [by rewrite <-Heq|]. by eapply (encloses_trans ch). }
    transitivity h.
    - apply (directly_below_unique ch Hwf (Some q) y); [done|done|done|by apply Hh].
    - apply (directly_below_unique ch Hwf (Some q) z); [done|done|by apply Hh|done]. }
  assert (encloses ch (Some q) y) as Qy by exact (within_kid ch c q y H1 H4).
  assert (encloses ch (Some q) z) as Qz by exact (within_kid ch c' q z H2 H5).
  assert (encloses ch (Some r) y) as Ry by exact (within_kid ch d' r y G2 G5).
  assert (encloses ch (Some r) z) as Rz by exact (within_kid ch d r z G1 G4).
  destruct (within_comparable q r y) as [[->|Hc]|Hc]; [by right|by right|..].
  - assert (c = d') as -> by by apply (directly_below_unique ch Hwf (Some q) y).
    assert (c' = d) as -> by by apply (directly_below_unique ch Hwf (Some q) z). lia.
  - assert (c = c') as -> by by apply (Hbelow q c c' r). lia.
  - assert (d' = d) as -> by by apply (Hbelow r d' d q). lia.
Qed.

Lemma root_within H a c p z : wfa ch H a → alive a (c, p) → parent ch c = None → alive a z → within ch c z.1.
Proof.
  intros Hw Hx Hp. remember z.1 as n eqn:Hn. revert z Hn. induction (lt_wf n) as [n _ IH]. intros z -> Hz.
  destruct (parent ch z.1) as [q|] eqn:E.
  - destruct (wa_par _ _ _ Hw _ _ Hz E) as [pq Hq]. apply (parent_lt _ Hwf) in E as Hlt.
    right. destruct (IH q Hlt (q, pq) eq_refl Hq) as [->|Hin]; [rewrite <-E; constructor|by eapply encloses_step].
  - left. change c with (c, p).1. f_equal. apply (alive_region ch a); [done|done|].
    unfold region. simpl. by rewrite Hp, E, (pos_top _ Hwf _ Hp), (pos_top _ Hwf _ E).
Qed.

(** Destroying [x] and outer states of it that are not the marked one changes nothing. *)
Lemma marked_shrink H' a0 a a' (x : aid) :
  (∀ r w, occ a !! r = Some w → region ch w.1 = r) → wfa ch H' a' →
  aunst a' = aunst a → (∀ y, alive a' y → alive a y) →
  (∀ y, alive a y → ¬ alive a' y → within ch y.1 x.1) →
  (∀ u, aunst a = Some u → within ch u.1 x.1) →
  marked a0 a → marked a0 a'.
Proof.
  intros Hreg Hw' Hu Hsub Hgone Hin Hm u Hu'. pose proof (wa_unst _ _ _ Hw' _ Hu') as Hua.
  rewrite Hu in Hu'. destruct (Hm u Hu') as [(k & [Hv Hn]) Hall]. specialize (Hin u Hu').
  assert (∀ r, occ a !! r = None → occ a' !! r = None) as Hnone.
  { intros r Hr. destruct (occ a' !! r) as [w|] eqn:E; [|done].
    pose proof (wa_reg _ _ _ Hw' _ _ E) as Er. assert (alive a' w) as Hw1 by (unfold Abs.alive; by rewrite Er).
    apply Hsub in Hw1. unfold Abs.alive in Hw1. rewrite Er in Hw1. congruence. }
  split.
  - exists k. split; [|done]. destruct Hv as (H1 & H2 & H3). split_and!; [done|done|by apply Hnone].
  - intros z j [(H1 & H2 & H3) Hz]. destruct (occ a !! (Some z.1, j)) as [w|] eqn:E.
    2:{ apply (Hall z j). split; [|done]. split_and!; [by apply Hsub|done|done]. }
    pose proof (Hreg _ _ E) as Er. assert (alive a w) as Hwa by (unfold Abs.alive; by rewrite Er).
    assert (¬ alive a' w) as Hwd. { intros Hw1. unfold Abs.alive in Hw1. rewrite Er in Hw1. congruence. }
    pose proof (Hgone w Hwa Hwd) as Hwx.
    assert (parent ch w.1 = Some z.1) as Hp by (unfold region in Er; by injection Er).
    destruct (within_comparable _ _ _ Hin Hwx) as [[Heq|Hc]|Hc].
    + exfalso. apply Hwd. rewrite <-(alive_unique ch a u w); [done|by apply Hsub|done|done].
    + by eapply encloses_up.
    + exfalso. apply Hwd.
      assert (∀ c, encloses ch (Some w.1) c → ∀ p, alive a' (c, p) → ∃ p', alive a' (w.1, p')) as Hgo.
      { clear -Hw'. intros c Hc. remember (Some w.1) as o eqn:Ho. induction Hc as [c|o c q Hp Hc IH]; intros p Hcp.
        - by apply (wa_par _ _ _ Hw' _ _ Hcp).
        - destruct (wa_par _ _ _ Hw' _ _ Hcp Hp) as [pq Hq]. by eapply IH. }
      destruct (Hgo u.1 Hc u.2) as [p' Hp']; [by destruct u|].
      replace w with (w.1, p'); [done|]. apply (alive_unique ch a); [by apply Hsub|done|done].
Qed.

(** ** Leaving states *)
(** The states [L] were being left when something went wrong at one of them. *)
Definition cut_at (L : list aid) (a a' : acore) : Prop :=
  ∃ P x R, L = P ++ x :: R ∧
    aunst a' = aunst (leave ch (P ++ [x]) a) ∧
    (∀ y, alive a' y → alive (leave ch (P ++ [x]) a) y) ∧
    (∀ y, alive (leave ch (P ++ [x]) a) y → ¬ alive a' y → within ch y.1 x.1).

Lemma cut_at_app L L' a a' : cut_at L' (leave ch L a) a' → cut_at (L ++ L') a a'.
Proof.
  intros (P & x & R & -> & H). exists (L ++ P), x, R. split; [by rewrite <-app_assoc|].
  rewrite <-app_assoc, leave_app. exact H.
Qed.
Lemma cut_at_more L L' a a' : cut_at L a a' → cut_at (L ++ L') a a'.
Proof. intros (P & x & R & -> & H). exists P, x, (R ++ L'). split; [by rewrite <-app_assoc|done]. Qed.

(** While states are left in order. *)
Lemma unstf_prefix H a L : wfa ch H a → (∀ y, y ∈ L → alive a y) →
  StronglySorted (λ y z : aid, exit_before ch y.1 z.1) L →
  (∀ y q, y ∈ L → ctx_of ch a y.1 = Some q → q ∈ L ∨ ∀ z, z ∈ L → within ch y.1 z.1) →
  ∀ P R, L = P ++ R → P ≠ [] →
  match unstf ch a P None with
  | Some u => u ∉ P ∧ (∃ y, y ∈ P ∧ ctx_of ch a y.1 = Some u) ∧
      ∀ y, y ∈ P → ∃ q, ctx_of ch a y.1 = Some q ∧ (q ∈ P ∨ within ch u.1 q.1)
  | None => R = []
  end.
Proof.
  intros Hw Hal Hs Hcl P. induction P as [|x P IH] using rev_ind; intros R HL Hne; [done|]. clear Hne.
  rewrite <-app_assoc in HL. cbn [app] in HL.
  assert (unstf ch a (P ++ [x]) None = if bool_decide (unstf ch a P None = None ∨ unstf ch a P None = Some x)
    then ctx_of ch a x.1 else unstf ch a P None) as -> by by rewrite unstf_app.
  assert (x ∈ L) as HxL by (rewrite HL; apply elem_of_app; right; left).
  assert (alive a x) as Hx by by apply Hal.
  assert (∀ y, y ∈ P → exit_before ch y.1 x.1) as Hbef.
  { intros y Hy. rewrite HL in Hs. clear -Hs Hy. induction P as [|w P IH]; [by apply elem_of_nil in Hy|].
    cbn [app] in Hs. apply StronglySorted_inv in Hs as [Hs Hf]. rewrite Forall_forall in Hf.
    apply elem_of_cons in Hy as [->|Hy]; [|by apply IH]. apply Hf. apply elem_of_app. right. left. }
  assert (∀ z, z ∈ R → exit_before ch x.1 z.1) as Haft.
  { intros z Hz. rewrite HL in Hs. clear -Hs Hz. induction P as [|w P IH].
    - cbn [app] in Hs. apply StronglySorted_inv in Hs as [Hs Hf]. rewrite Forall_forall in Hf. by apply Hf.
    - cbn [app] in Hs. apply StronglySorted_inv in Hs as [Hs Hf]. by apply IH. }
  assert (∀ q, ctx_of ch a x.1 = Some q → q ∉ P) as HcP.
  { intros q Hq Hin. by apply (exit_before_ctx ch Hwf _ _ q x Hw Hx (Hbef q Hin)). }
  assert (∀ q, ctx_of ch a x.1 = Some q → encloses ch (Some q.1) x.1) as Hqx.
  { intros q Hq. destruct x as [c p]. destruct (ctx_of_alive _ _ _ _ _ _ Hw Hx Hq) as [_ Hp]. simpl. rewrite <-Hp. constructor. }
  assert (∀ q, ctx_of ch a x.1 = Some q → q ≠ x) as Hqne.
  { intros q Hq ->. apply Hqx in Hq. apply (encloses_lt ch Hwf) in Hq. lia. }
  assert (ctx_of ch a x.1 = None → R = []) as Hroot.
  { intros Hc. destruct R as [|z R]; [done|]. exfalso.
    specialize (Haft z). destruct x as [c p]. pose proof (ctx_of_None _ _ _ _ _ Hw Hx Hc) as Hp. simpl in *.
    assert (exit_before ch c z.1) as He by (apply Haft; left). apply (exit_before_not ch Hwf) in He. apply He.
    assert (alive a z) as Hz. { apply Hal. rewrite HL. apply elem_of_app. right. right. left. }
    by apply (root_within H a c p). }
  destruct (decide (P = [])) as [->|HP].
  - rewrite bool_decide_true by by left. destruct (ctx_of ch a x.1) as [q|] eqn:Hc.
    + cbn [app]. split_and!.
      * intros ->%elem_of_list_singleton. by eapply Hqne.
      * exists x. split; [left|done].
      * intros y ->%elem_of_list_singleton. exists q. split; [done|]. right. by left.
    + auto.
  - specialize (IH (x :: R) HL HP). destruct (unstf ch a P None) as [u|] eqn:Eu; [|done].
    destruct IH as (I1 & (y & I2 & I2') & I3). destruct (decide (u = x)) as [->|Hux].
    + rewrite bool_decide_true by by right. destruct (ctx_of ch a x.1) as [q|] eqn:Hc; [|auto].
      split_and!.
      * intros [Hq|Hq%elem_of_list_singleton]%elem_of_app; [by eapply HcP|by eapply Hqne].
      * exists x. split; [apply elem_of_app; right; left|done].
      * intros z [Hz|Hz%elem_of_list_singleton]%elem_of_app.
        -- destruct (I3 z Hz) as (q' & H1 & H2). exists q'. split; [done|]. rewrite elem_of_app.
           destruct H2 as [H2|[H2|H2]]; [by left; left| |].
           ++ left. right. apply elem_of_list_singleton. assert (alive a z) as Hza by (apply Hal; rewrite HL; apply elem_of_app; by left).
              destruct z as [cz pz]. destruct (ctx_of_alive _ _ _ _ _ _ Hw Hza H1) as [Hq' _].
              by apply (alive_unique ch a).
           ++ right. right. eapply (encloses_trans ch); [by apply Hqx|done].
        -- subst z. exists q. split; [done|]. right. by left.
    + rewrite bool_decide_false by (intros [?|?]; congruence).
      assert (encloses ch (Some u.1) x.1) as Hin.
      { assert (alive a y) as Hya by (apply Hal; rewrite HL; apply elem_of_app; by left).
        destruct y as [cy py]. destruct (ctx_of_alive _ _ _ _ _ _ Hw Hya I2') as [Hu Hpy].
        assert (y_in : (cy, py) ∈ L) by (rewrite HL; apply elem_of_app; by left).
        destruct (Hcl _ _ y_in I2') as [HuL|Htop].
        - rewrite HL in HuL. apply elem_of_app in HuL as [?|[?|HuR]%elem_of_cons]; [done|done|].
          pose proof (Haft u HuR) as Hxu. pose proof (Hbef _ I2) as Hyx. simpl in Hyx.
          destruct Hxu as [He|(q & c & c' & H1 & H2 & H3 & H4 & H5)]; [done|]. exfalso.
          assert (within ch c' cy) as H6.
          { right. destruct H5 as [H5|H5]; [rewrite <-H5, <-Hpy; constructor|]. eapply (encloses_trans ch); [exact H5|]. rewrite <-Hpy. constructor. }
          apply (exit_before_asym _ _ Hyx). right. exists q, c, c'. done.
        - exfalso. pose proof (Htop x HxL) as Hyx. simpl in Hyx.
          apply (exit_before_not ch Hwf _ _ (Hbef _ I2)). done. }
      split_and!.
      * intros [?|?%elem_of_list_singleton]%elem_of_app; [done|congruence].
      * exists y. split; [apply elem_of_app; by left|done].
      * intros z [Hz|Hz%elem_of_list_singleton]%elem_of_app.
        -- destruct (I3 z Hz) as (q' & H1 & H2). exists q'. rewrite elem_of_app. tauto.
        -- subst z. destruct (ctx_of ch a x.1) as [q|] eqn:Hc.
           ++ exists q. split; [done|]. right. destruct x as [c p].
              destruct (ctx_of_alive _ _ _ _ _ _ Hw Hx Hc) as [_ Hp]. by eapply encloses_up.
           ++ exfalso. destruct x as [c p]. pose proof (ctx_of_None _ _ _ _ _ Hw Hx Hc) as Hp.
              simpl in *. inversion Hin; congruence.
Qed.

(** Whose context is left as well: everything but the last. *)
Lemma gone_closed H H' a x y q : wfa ch H' a → alive a x → y ∈ gone ch H a x → ctx_of ch a y.1 = Some q →
  q ∈ gone ch H a x ∨ ∀ z, z ∈ gone ch H a x → within ch y.1 z.1.
Proof.
  intros Hw Hx Hy Hq. assert (alive a y) as Hya by by eapply gone_alive.
  assert (alive a q ∧ parent ch y.1 = Some q.1) as [Hqa Hp].
  { destruct y as [c p]. by apply (ctx_of_alive _ _ _ _ _ _ Hw Hya Hq). }
  unfold gone in *. setoid_rewrite elem_of_app. apply elem_of_app in Hy.
  assert (∀ w, w ∈ sub ch a x → within ch x.1 w.1) as Hsub.
  { intros w. rewrite (elem_of_sub ch Hwf _ _ _ _ Hw Hx). tauto. }
  destruct (decide (y ∈ sub ch a x)) as [Hs|Hs].
  - apply (elem_of_sub ch Hwf _ _ _ _ Hw Hx) in Hs as [_ [Hs|Hs]].
    + assert (y = x) as -> by by apply (alive_unique ch a).
      rewrite (up_unfold ch Hwf _ _ _ _ Hw Hx), Hq. destruct (decide _); [left; right; left|].
      right. intros z [Hz|Hz%elem_of_nil]; [by apply Hsub|done].
    + left. left. apply (elem_of_sub ch Hwf _ _ _ _ Hw Hx). split; [done|]. by eapply encloses_up.
  - destruct Hy as [?|Hy]; [done|]. clear Hs.
    assert (∀ x, alive a x → y ∈ up ch H a x → q ∈ up ch H a x ∨
      (∀ z, z ∈ up ch H a x → within ch y.1 z.1) ∧ within ch y.1 x.1) as Hgo.
    { clear x Hx Hy Hsub. refine (up_ind ch Hwf (λ x, y ∈ up ch H a x → q ∈ up ch H a x ∨
        (∀ z, z ∈ up ch H a x → within ch y.1 z.1) ∧ within ch y.1 x.1) H H' a Hw _). intros x Hx IH Hy.
      rewrite (up_unfold ch Hwf _ _ _ _ Hw Hx) in Hy |- *. destruct (ctx_of ch a x.1) as [r|] eqn:Hc.
      2:{ by apply elem_of_nil in Hy. }
      destruct (decide _) as [[Hk Hn]|]; [|by apply elem_of_nil in Hy].
      assert (alive a r ∧ parent ch x.1 = Some r.1) as [Hr Hpr].
      { destruct x as [c p]. by apply (ctx_of_alive _ _ _ _ _ _ Hw Hx Hc). }
      apply elem_of_cons in Hy as [->|Hy].
      - rewrite (up_unfold ch Hwf _ _ _ _ Hw Hr), Hq. destruct (decide _); [left; right; left|]. right. split.
        + intros z ->%elem_of_list_singleton. by left.
        + right. rewrite <-Hpr. constructor.
      - destruct (IH r eq_refl Hr Hk Hn Hy) as [H1|[H1 H2]]; [left; by right|]. right. split.
        + intros z [->|Hz]%elem_of_cons; [done|by apply H1].
        + right. destruct H2 as [H2|H2]; [rewrite <-H2, <-Hpr; constructor|by eapply encloses_step]. }
    destruct (Hgo x Hx Hy) as [H1|[H1 H2]]; [left; by right|]. right. intros z [Hz|Hz]; [|by apply H1].
    apply Hsub in Hz. destruct H2 as [H2|H2]; [by rewrite <-H2|]. right.
    destruct Hz as [Hz|Hz]; [by rewrite Hz|]. by eapply (encloses_trans ch).
Qed.

Lemma cut_marked H H' a a' x : wfa ch H a → wfa ch H' a' → aunst a = None → alive a x →
  (∀ y, y ∈ H → y.1 < x.1) → cut_at (gone ch H a x) a a' → marked a a'.
Proof.
  intros Hw Hw' Hu Hx HH (P & x0 & R & HL & H1 & H2 & H3).
  assert (∀ y, y ∈ gone ch H a x → alive a y) as Hal by (intros y; by eapply gone_alive).
  pose proof (gone_sorted ch Hwf H _ _ _ Hw Hx) as Hs.
  assert (gone ch H a x = (P ++ [x0]) ++ R) as HL' by by rewrite <-app_assoc.
  pose proof (unstf_prefix H a _ Hw Hal Hs (λ y q Hy, gone_closed H H a x y q Hw Hx Hy) (P ++ [x0]) R HL') as Hpre.
  assert (P ++ [x0] ≠ []) as Hne by by destruct P. specialize (Hpre Hne).
  assert (∀ y, y ∈ P ++ [x0] → alive a y) as HalP.
  { intros y Hy. apply Hal. rewrite HL'. apply elem_of_app. by left. }
  assert (aunst (leave ch (P ++ [x0]) a) = unstf ch a (P ++ [x0]) None) as Hun.
  { rewrite (unst_leave ch a), Hu; [done|done| |done].
    rewrite HL' in Hs. clear -Hs Hw HalP Hwf. induction (P ++ [x0]) as [|y l IH]; [constructor|].
    cbn [app] in Hs. apply StronglySorted_inv in Hs as [Hs Hf]. constructor.
    - apply IH; [done|]. intros z Hz. apply HalP. by right.
    - rewrite Forall_forall in *. intros z Hz. apply (exit_before_ctx ch Hwf H); [done| |].
      + apply HalP. by right.
      + apply Hf. apply elem_of_app. by left. }
  rewrite Hun in H1.
  assert (x0 ∈ P ++ [x0]) as Hx0 by (apply elem_of_app; right; left).
  assert (∀ y, alive (leave ch (P ++ [x0]) a) y ↔ alive a y ∧ y ∉ P ++ [x0]) as Hla.
  { intros y. by apply leave_alive. }
  apply (marked_shrink H' a (leave ch (P ++ [x0]) a) a' x0).
  - intros r w. rewrite occ_leave. destruct (decide _); [done|]. apply (wa_reg _ _ _ Hw).
  - done.
  - by rewrite Hun.
  - done.
  - done.
  - intros u Hu'. rewrite Hun in Hu'. rewrite Hu' in Hpre. destruct Hpre as (I1 & I2 & I3).
    destruct (I3 x0 Hx0) as (q & Hq & Hin).
    assert (alive a q ∧ parent ch x0.1 = Some q.1) as [Hqa Hp].
    { pose proof (HalP _ Hx0) as Hx0a. destruct x0 as [c p]. by apply (ctx_of_alive _ _ _ _ _ _ Hw Hx0a Hq). }
    assert (encloses ch (Some q.1) x0.1) as Hqx by (rewrite <-Hp; constructor).
    destruct Hin as [Hin|[Hin|Hin]].
    + exfalso. rewrite HL' in Hs.
      apply elem_of_app in Hin as [Hin|Hin%elem_of_list_singleton].
      * rewrite <-app_assoc in Hs. cbn [app] in Hs.
        assert (exit_before ch q.1 x0.1) as He.
        { clear -Hs Hin. induction P as [|w P IH]; [by apply elem_of_nil in Hin|].
          cbn [app] in Hs. apply StronglySorted_inv in Hs as [Hs Hf]. rewrite Forall_forall in Hf.
          apply elem_of_cons in Hin as [->|Hin]; [|by apply IH]. apply Hf. apply elem_of_app. right. left. }
        apply (exit_before_not ch Hwf _ _ He). by right.
      * subst q. apply (encloses_lt ch Hwf) in Hqx. lia.
    + right. by rewrite <-Hin.
    + right. by eapply (encloses_trans ch).
  - intros u Hu'. rewrite Hun in Hu'. rewrite Hu' in Hpre. destruct Hpre as (I1 & (y & I2 & I2') & I3).
    assert (∀ y q, alive a y → ctx_of ch a y.1 = Some q → alive a q ∧ parent ch y.1 = Some q.1) as Hctx.
    { intros [c p] q Hya Hq. by apply (ctx_of_alive _ _ _ _ _ _ Hw Hya Hq). }
    assert (∀ y q, y ∈ P ++ [x0] → ctx_of ch a y.1 = Some q → q ∉ P ++ [x0] →
      newvac a (leave ch (P ++ [x0]) a) q (pos ch y.1)) as Hnv.
    { intros w q Hw1 Hq Hn. destruct (Hctx w q (HalP w Hw1) Hq) as [Hqa Hp]. pose proof (HalP w Hw1) as Hwa. split.
      - split_and!; [by apply Hla|by apply (pos_lt _ Hwf)|]. rewrite occ_leave, decide_True; [done|].
        apply elem_of_list_In, in_map_iff. exists w. split; [unfold region; by rewrite Hp|by apply elem_of_list_In].
      - intros (_ & _ & Hv). unfold Abs.alive, region in Hwa. rewrite Hp in Hwa. congruence. }
    split; [exists (pos ch y.1); by apply Hnv|].
    intros z k [(Z1 & Z2 & Z3) Z4]. apply Hla in Z1 as [Z1 Z1'].
    rewrite occ_leave in Z3. destruct (decide _) as [Hr|Hr].
    + apply elem_of_list_In, in_map_iff in Hr as (w & Hwr & Hwi). apply elem_of_list_In in Hwi.
      destruct (I3 w Hwi) as (q & Hq & Hin). destruct (Hctx w q (HalP w Hwi) Hq) as [Hqa Hp].
      unfold region in Hwr. rewrite Hp in Hwr. injection Hwr as Hqz _.
      assert (q = z) as -> by by apply (alive_unique ch a). by destruct Hin.
    + exfalso. apply Z4. done.
Qed.

(** A state with everything inside is left: only its own region becomes vacant. *)
Lemma newvac_sub H a x z k : wfa ch H a → alive a x →
  newvac a (leave ch (sub ch a x) a) z k → ctx_of ch a x.1 = Some z ∧ k = pos ch x.1.
Proof.
  intros Hw Hx [(Z1 & Z2 & Z3) Z4].
  assert (∀ y, y ∈ sub ch a x → alive a y) as Hal by (intros y; rewrite (elem_of_sub ch Hwf _ _ _ _ Hw Hx); tauto).
  apply leave_alive in Z1 as [Z1 Z1']; [|done]. rewrite occ_leave in Z3. destruct (decide _) as [Hr|Hr]; [|by destruct Z4].
  apply elem_of_list_In, in_map_iff in Hr as (w & Hwr & Hwi). apply elem_of_list_In in Hwi.
  assert (parent ch w.1 = Some z.1 ∧ pos ch w.1 = k) as [Hp Hk] by (unfold region in Hwr; by injection Hwr).
  destruct (sub_parent ch Hwf _ _ _ _ Hw Hx Hwi) as [->|(c & Hc & Hin)].
  - split; [|done]. unfold ctx_of. rewrite Hp. done.
  - exfalso. apply Z1'. apply (elem_of_sub ch Hwf _ _ _ _ Hw Hx). split; [done|]. congruence.
Qed.
Lemma newvac_sub_at H a x z : wfa ch H a → alive a x → ctx_of ch a x.1 = Some z →
  newvac a (leave ch (sub ch a x) a) z (pos ch x.1).
Proof.
  intros Hw Hx Hc. assert (alive a z ∧ parent ch x.1 = Some z.1) as [Hz Hp].
  { destruct x as [c p]. by apply (ctx_of_alive _ _ _ _ _ _ Hw Hx Hc). }
  assert (∀ y, y ∈ sub ch a x ↔ alive a y ∧ within ch x.1 y.1) as Hsub.
  { intros y. by rewrite (elem_of_sub ch Hwf _ _ _ _ Hw Hx). }
  assert (region ch x.1 = (Some z.1, pos ch x.1)) as Hr by (unfold region; by rewrite Hp). split.
  - split_and!.
    + apply leave_alive; [intros y Hy; by apply Hsub in Hy as [? _]|]. split; [done|]. intros [_ Hin]%Hsub.
      apply (parent_lt _ Hwf) in Hp. destruct Hin as [Hin|Hin]; [lia|]. apply (encloses_lt ch Hwf) in Hin. lia.
    + by apply (pos_lt _ Hwf).
    + rewrite occ_leave, decide_True; [done|]. rewrite <-Hr. apply elem_of_list_In, in_map_iff. exists x.
      split; [done|]. apply elem_of_list_In. apply Hsub. split; [done|by left].
  - intros (_ & _ & Hv). unfold Abs.alive in Hx. rewrite Hr in Hx. congruence.
Qed.
End vacant.
