(** What remains of a configuration when states are left one after the other, and which states are left
    when a state is removed. *)
From Verif Require Export Good.

Lemma elem_of_rev {A} (x : A) l : x ∈ rev l ↔ x ∈ l.
Proof. by rewrite !elem_of_list_In, <-in_rev. Qed.

Section leave.
Context (ch : chart) (Hwf : wf_chart ch = true).
Notation alive := (alive ch).
Notation kids := (kids ch).

Definition leave (L : list aid) (a : acore) : acore := fold_left (λ a x, left_ ch x a) L a.

Lemma leave_app L L' a : leave (L ++ L') a = leave L' (leave L a).
Proof. apply fold_left_app. Qed.
Lemma leave_cons x L a : leave (x :: L) a = leave L (left_ ch x a).
Proof. done. Qed.

Lemma occ_leave L a r :
  occ (leave L a) !! r = if decide (r ∈ map (λ x : aid, region ch x.1) L) then None else occ a !! r.
Proof.
  revert a. induction L as [|x L IH]; intros a; [done|]. rewrite leave_cons, IH.
  destruct (left_fields ch x a) as (-> & _). cbn [map].
  destruct (decide (r ∈ map (λ x : aid, region ch x.1) L)) as [Hr|Hr].
  - rewrite decide_True by by right. done.
  - destruct (decide (r = region ch x.1)) as [->|Hne].
    + rewrite decide_True by left. by rewrite lookup_delete.
    + rewrite decide_False by (rewrite elem_of_cons; tauto). by rewrite lookup_delete_ne.
Qed.

Lemma anxt_leave L a : anxt (leave L a) = anxt a.
Proof.
  revert a. induction L as [|x L IH]; intros a; [done|]. rewrite leave_cons, IH.
  by destruct (left_fields ch x a) as (_ & _ & _ & -> & _).
Qed.

Lemma NoDup_unlisted x a : NoDup (ord a) → NoDup (ord (unlisted x a)).
Proof.
  intros Hnd. unfold unlisted. destruct (list_find (eq x) (ord a)) as [[i y]|] eqn:E; [|done].
  apply list_find_eq_Some in E as [-> E]. by eapply swap_remove_NoDup.
Qed.

Lemma ord_leave L a y : NoDup (ord a) → (y ∈ ord (leave L a) ↔ y ∈ ord a ∧ y ∉ L).
Proof.
  revert a. induction L as [|x L IH]; intros a Hnd.
  - simpl. split; [|tauto]. intros ?. split; [done|]. apply not_elem_of_nil.
  - rewrite leave_cons. destruct (left_fields ch x a) as (_ & _ & Ho & _).
    rewrite IH by (rewrite Ho; by apply NoDup_unlisted).
    rewrite Ho, unlisted_ord, not_elem_of_cons by done. tauto.
Qed.

Lemma unst_leave_other L a u : aunst a = Some u → u ∉ L → aunst (leave L a) = Some u.
Proof.
  revert a. induction L as [|x L IH]; intros a Hu Hn; [done|]. rewrite leave_cons.
  apply not_elem_of_cons in Hn as [Hne Hn]. apply IH; [|done].
  destruct (left_fields ch x a) as (_ & _ & _ & _ & ->).
  rewrite bool_decide_false; [done|]. rewrite Hu. intros [|]; congruence.
Qed.

(** The objects of the subtree of [x], inner before outer, higher regions first. *)
Fixpoint sub_f (n : nat) (a : acore) (x : aid) : list aid :=
  match n with
  | 0 => [x]
  | Datatypes.S n' => concat (map (sub_f n' a) (rev (kids a x.1))) ++ [x]
  end.
Definition sub (a : acore) (x : aid) : list aid := sub_f (ncls ch - x.1) a x.

(** The outer objects of [x] that have nothing else inside, up to the first one in [H]. *)
Fixpoint up_f (n : nat) (H : list aid) (a : acore) (x : aid) : list aid :=
  match n with
  | 0 => []
  | Datatypes.S n' =>
      match ctx_of ch a x.1 with
      | Some q => if decide (kids a q.1 = [x] ∧ q ∉ H) then q :: up_f n' H a q else []
      | None => []
      end
  end.
Definition up (H : list aid) (a : acore) (x : aid) : list aid := up_f (Datatypes.S x.1) H a x.

Lemma kids_lt H a c y : wfa ch H a → y ∈ kids a c → c < y.1 ∧ y.1 < ncls ch.
Proof.
  intros Hw Hy. apply (elem_of_kids ch Hwf _ _ _ _ Hw) in Hy as [_ Hp].
  split; [by apply (parent_lt _ Hwf)|by eapply parent_declared].
Qed.

Lemma sub_enough H a n m x : wfa ch H a → ncls ch - x.1 ≤ n → ncls ch - x.1 ≤ m →
  sub_f n a x = sub_f m a x.
Proof.
  intros Hw. revert m x.
  assert (∀ k x, ncls ch - x.1 = 0 → sub_f k a x = [x]) as H0.
  { intros [|k] x Hx; [done|]. simpl. destruct (kids a x.1) as [|y l] eqn:E; [done|].
    destruct (kids_lt _ _ x.1 y Hw) as [H1 H2]; [rewrite E; left|]. lia. }
  induction n as [|n IH]; intros m x Hn Hm.
  - rewrite (H0 m); [done|lia].
  - destruct m as [|m].
    { rewrite H0; [done|lia]. }
    simpl. f_equal. f_equal. apply map_ext_in. intros y Hy%elem_of_list_In.
    rewrite elem_of_rev in Hy. apply (kids_lt _ _ _ _ Hw) in Hy. apply IH; lia.
Qed.

Lemma sub_unfold H a x : wfa ch H a → sub a x = concat (map (sub a) (rev (kids a x.1))) ++ [x].
Proof.
  intros Hw. unfold sub. rewrite (sub_enough _ _ _ (Datatypes.S (ncls ch - x.1)) _ Hw) by lia. simpl.
  f_equal. f_equal. apply map_ext_in. intros y Hy%elem_of_list_In.
  rewrite elem_of_rev in Hy. apply (kids_lt _ _ _ _ Hw) in Hy. apply (sub_enough _ _ _ _ _ Hw); lia.
Qed.

Lemma up_unfold H H' a x : wfa ch H' a → alive a x → up H a x =
  match ctx_of ch a x.1 with
  | Some q => if decide (kids a q.1 = [x] ∧ q ∉ H) then q :: up H a q else []
  | None => []
  end.
Proof.
  intros Hw Hx. unfold up. cbn [up_f]. destruct (ctx_of ch a x.1) as [q|] eqn:Hc; [|done].
  destruct (decide _); [|done]. f_equal. destruct x as [c p].
  destruct (ctx_of_alive _ _ _ _ _ _ Hw Hx Hc) as [Hq Hp]. apply (parent_lt _ Hwf) in Hp. simpl.
  assert (∀ n m q, alive a q → q.1 < n → q.1 < m → up_f n H a q = up_f m H a q) as Hgen.
  { clear c p Hx Hc q Hq Hp a0. induction n as [|n IH]; intros m q Hq Hn Hm; [lia|]. destruct m as [|m]; [lia|].
    simpl. destruct (ctx_of ch a q.1) as [r|] eqn:Hc; [|done]. destruct (decide _); [|done]. f_equal.
    destruct q as [cq pq]. destruct (ctx_of_alive _ _ _ _ _ _ Hw Hq Hc) as [Hr Hp].
    apply (parent_lt _ Hwf) in Hp. simpl in *. apply IH; [done|lia..]. }
  apply (Hgen c (Datatypes.S q.1)); [done|lia..].
Qed.

(** The subtree consists of the active objects inside. *)
Lemma elem_of_sub H a x y : wfa ch H a → alive a x →
  (y ∈ sub a x ↔ alive a y ∧ within ch x.1 y.1).
Proof.
  intros Hw. remember (ncls ch - x.1) as n eqn:Hn. revert x Hn y.
  induction (lt_wf n) as [n _ IH]. intros x Hn y Hx. subst n.
  rewrite (sub_unfold _ _ _ Hw), elem_of_app, elem_of_list_singleton, elem_of_list_In, in_concat.
  split.
  - intros [(l & Hl & Hy)| ->]; [|split; [done|by left]].
    apply in_map_iff in Hl as (z & <- & Hz). apply elem_of_list_In in Hz, Hy.
    rewrite elem_of_rev in Hz. pose proof (kids_lt _ _ _ _ Hw Hz) as Hlt.
    apply (elem_of_kids ch Hwf _ _ _ _ Hw) in Hz as [Hz Hp].
    apply (IH (ncls ch - z.1)) in Hy as [Hy Hin]; [|lia|done|done]. split; [done|]. right.
    destruct Hin as [Heq|Hin].
    + rewrite Heq. rewrite <-Hp. constructor.
    + eapply (encloses_trans ch); [|exact Hin]. rewrite <-Hp. constructor.
  - intros [Hy Hin]. destruct Hin as [Heq|Hin].
    { right. destruct x, y; simpl in *; subst. unfold Abs.alive in *; simpl in *. congruence. }
    left.
    assert (∀ c, encloses ch (Some x.1) c → ∀ p, alive a (c, p) →
      ∃ z, z ∈ kids a x.1 ∧ within ch z.1 c) as Hz.
    { clear Hin. intros c Hc. remember (Some x.1) as o eqn:Ho. induction Hc as [c|o c q Hp Hc IHc]; intros p Hp'.
      - exists (c, p). split; [|by left]. apply (elem_of_kids ch Hwf _ _ _ _ Hw). done.
      - destruct (wa_par _ _ _ Hw (c, p) q Hp' Hp) as [pq Hq].
        destruct (IHc Ho pq Hq) as (z & Hz & Hin'). exists z. split; [done|]. right.
        destruct Hin' as [->|Hin']; [rewrite <-Hp; constructor|]. by eapply encloses_step. }
    destruct (Hz y.1 Hin y.2) as (z & Hzk & Hin'); [by destruct y|].
    exists (sub a z). split.
    + apply in_map_iff. exists z. split; [done|]. apply elem_of_list_In. by rewrite elem_of_rev.
    + apply elem_of_list_In. pose proof (kids_lt _ _ _ _ Hw Hzk).
      apply (elem_of_kids ch Hwf _ _ _ _ Hw) in Hzk as [Hza Hp].
      apply (IH (ncls ch - z.1)); [lia|done|done|done].
Qed.

Lemma sub_agree H H' a a' x : wfa ch H a → wfa ch H' a' →
  (∀ c k, within ch x.1 c → occ a' !! (Some c, k) = occ a !! (Some c, k)) → sub a' x = sub a x.
Proof.
  intros Hw Hw' . remember (ncls ch - x.1) as n eqn:Hn. revert x Hn.
  induction (lt_wf n) as [n _ IH]. intros x Hn Heq. subst n.
  rewrite (sub_unfold _ _ _ Hw), (sub_unfold _ _ _ Hw'). f_equal. f_equal.
  assert (kids a' x.1 = kids a x.1) as ->.
  { apply kids_other. intros k. apply Heq. by left. }
  apply map_ext_in. intros y Hy%elem_of_list_In. rewrite elem_of_rev in Hy.
  pose proof (kids_lt _ _ _ _ Hw Hy) as Hlt.
  apply (elem_of_kids ch Hwf _ _ _ _ Hw) in Hy as [_ Hp].
  apply (IH (ncls ch - y.1)); [lia|done|]. intros c k Hc. apply Heq. right.
  destruct Hc as [->|Hc]; [rewrite <-Hp; constructor|].
  eapply (encloses_trans ch); [|exact Hc]. rewrite <-Hp. constructor.
Qed.

Lemma within_refl c : within ch c c.
Proof. by left. Qed.
Lemma within_kid c d y : parent ch c = Some d → within ch c y → encloses ch (Some d) y.
Proof.
  intros Hp [->|Hin]; [rewrite <-Hp; constructor|]. eapply (encloses_trans ch); [|exact Hin].
  rewrite <-Hp. constructor.
Qed.

Lemma alive_unique a x y : alive a x → alive a y → x.1 = y.1 → x = y.
Proof. destruct x, y; simpl. unfold Abs.alive. simpl. intros H1 H2 ->. congruence. Qed.
Lemma alive_region a x y : alive a x → alive a y → region ch x.1 = region ch y.1 → x = y.
Proof. unfold Abs.alive. intros H1 H2 Heq. congruence. Qed.

Lemma leave_alive L a y : (∀ x, x ∈ L → alive a x) → (alive (leave L a) y ↔ alive a y ∧ y ∉ L).
Proof.
  intros HL. unfold Abs.alive at 1. rewrite occ_leave. destruct (decide _) as [Hr|Hr].
  - split; [done|]. intros [Hy Hn]. apply elem_of_list_In, in_map_iff in Hr as (z & Hz & Hin).
    apply elem_of_list_In in Hin. destruct Hn. rewrite <-(alive_region a z y); auto.
  - split; [|tauto]. intros Hy. split; [done|]. intros Hin. apply Hr.
    apply elem_of_list_In, in_map_iff. exists y. split; [done|]. by apply elem_of_list_In.
Qed.

Lemma sub_parent H a y w : wfa ch H a → alive a y → w ∈ sub a y →
  w = y ∨ ∃ c, parent ch w.1 = Some c ∧ within ch y.1 c.
Proof.
  intros Hw Hy Hin. apply (elem_of_sub _ _ _ _ Hw Hy) in Hin as [Hwa [Heq|Hin]].
  - left. by apply (alive_unique a).
  - right. inversion Hin as [c Hc|o c q Hp Hq]; subst.
    + exists y.1. split; [done|by left].
    + exists q. split; [done|by right].
Qed.

Lemma leave_sub_other H a y r : wfa ch H a → alive a y → r ≠ region ch y.1 →
  (∀ c, r.1 = Some c → ¬ within ch y.1 c) → occ (leave (sub a y) a) !! r = occ a !! r.
Proof.
  intros Hw Hy Hr Hc. rewrite occ_leave. rewrite decide_False; [done|].
  intros Hin. apply elem_of_list_In, in_map_iff in Hin as (w & Hwr & Hin).
  apply elem_of_list_In in Hin. destruct (sub_parent _ _ _ _ Hw Hy Hin) as [->|(c & Hp & Hcy)]; [done|].
  apply (Hc c); [|done]. rewrite <-Hwr. done.
Qed.

(** ** Order *)
Lemma sorted_app {B} (R : B → B → Prop) l k :
  StronglySorted R l → StronglySorted R k → (∀ u v, u ∈ l → v ∈ k → R u v) → StronglySorted R (l ++ k).
Proof.
  induction 1 as [|y l Hs IH Hall]; intros Hk HR; simpl; [done|]. constructor.
  - apply IH; [done|]. intros u v Hu. apply HR. by right.
  - apply Forall_app. split; [done|]. apply Forall_forall. intros v Hv. apply HR; [left|done].
Qed.

Lemma concat_sorted {A B} (R : B → B → Prop) (R' : A → A → Prop) (f : A → list B) l :
  StronglySorted R' l → (∀ y, y ∈ l → StronglySorted R (f y)) →
  (∀ y z, y ∈ l → z ∈ l → R' y z → ∀ u v, u ∈ f y → v ∈ f z → R u v) →
  StronglySorted R (concat (map f l)).
Proof.
  induction 1 as [|y l Hs IH Hall]; intros Hf HR; simpl; [constructor|].
  rewrite Forall_forall in Hall. apply sorted_app.
  - apply Hf. left.
  - apply IH; [intros z Hz; apply Hf; by right|]. intros z1 z2 H1 H2. apply HR; by right.
  - intros u v Hu Hv. apply elem_of_list_In, in_concat in Hv as (k & Hk & Hv).
    apply in_map_iff in Hk as (z & <- & Hz). apply elem_of_list_In in Hz, Hv.
    apply (HR y z); [left|by right|by apply Hall|done|done].
Qed.

Lemma sorted_rev {B} (R : B → B → Prop) l : StronglySorted R l → StronglySorted (flip R) (rev l).
Proof.
  induction 1 as [|y l Hs IH Hall]; simpl; [constructor|]. apply sorted_app; [done| |].
  - repeat constructor.
  - intros u v Hu ->%elem_of_list_singleton. rewrite elem_of_rev in Hu. rewrite Forall_forall in Hall.
    by apply Hall.
Qed.

Lemma sorted_omap {A B} (R : B → B → Prop) (R' : A → A → Prop) (f : A → option B) l :
  StronglySorted R' l → (∀ y z u v, R' y z → f y = Some u → f z = Some v → R u v) →
  StronglySorted R (omap f l).
Proof.
  intros Hs HR. induction Hs as [|y l Hs IH Hall]; [constructor|].
  rewrite omap_cons_eq. destruct (f y) as [u|] eqn:E; [|done]. constructor; [done|].
  apply Forall_forall. intros v Hv. apply elem_of_list_omap in Hv as (z & Hz & Hv).
  rewrite Forall_forall in Hall. by apply (HR y z); [apply Hall|..].
Qed.

Lemma seq_sorted n m : StronglySorted lt (seq n m).
Proof.
  revert n. induction m as [|m IH]; intros n; simpl; [constructor|]. constructor; [done|].
  apply Forall_forall. intros k Hk. apply elem_of_seq in Hk. lia.
Qed.

Lemma kids_sorted H a c : wfa ch H a →
  StronglySorted (λ y z : aid, pos ch y.1 < pos ch z.1) (kids a c).
Proof.
  intros Hw. apply (sorted_omap _ lt); [apply seq_sorted|].
  intros k j y z Hlt Hy Hz. apply (wa_reg _ _ _ Hw) in Hy, Hz. unfold region in Hy, Hz.
  injection Hy as _ ->. injection Hz as _ ->. done.
Qed.

Lemma sub_sorted H a x : wfa ch H a → alive a x →
  StronglySorted (λ y z : aid, exit_before ch y.1 z.1) (sub a x).
Proof.
  intros Hw. remember (ncls ch - x.1) as n eqn:Hn. revert x Hn.
  induction (lt_wf n) as [n _ IH]. intros x Hn Hx. subst n. rewrite (sub_unfold _ _ _ Hw).
  assert (∀ y, y ∈ rev (kids a x.1) → alive a y ∧ parent ch y.1 = Some x.1 ∧ ncls ch - y.1 < ncls ch - x.1) as Hk.
  { intros y Hy. rewrite elem_of_rev in Hy. pose proof (kids_lt _ _ _ _ Hw Hy).
    apply (elem_of_kids ch Hwf _ _ _ _ Hw) in Hy as [Hy Hp]. split_and!; [done..|lia]. }
  apply sorted_app.
  - eapply concat_sorted; [apply sorted_rev, (kids_sorted _ _ _ Hw)| |].
    + intros y Hy. destruct (Hk y Hy) as (Hy1 & _ & Hy2). by eapply IH.
    + intros y z Hy Hz Hlt u v Hu Hv. unfold flip in Hlt. right.
      destruct (Hk y Hy) as (Hy1 & Hy2 & _), (Hk z Hz) as (Hz1 & Hz2 & _).
      apply (elem_of_sub _ _ _ _ Hw) in Hu as [_ Hu]; [|done].
      apply (elem_of_sub _ _ _ _ Hw) in Hv as [_ Hv]; [|done]. by exists x.1, y.1, z.1.
  - repeat constructor.
  - intros u v Hu ->%elem_of_list_singleton. left.
    apply elem_of_list_In, in_concat in Hu as (k & Hk' & Hu).
    apply in_map_iff in Hk' as (z & <- & Hz). apply elem_of_list_In in Hz, Hu.
    destruct (Hk z Hz) as (Hz1 & Hz2 & _). apply (elem_of_sub _ _ _ _ Hw) in Hu as [_ Hu]; [|done].
    by eapply within_kid.
Qed.

Lemma exit_before_not y z : exit_before ch y z → ¬ within ch y z.
Proof.
  intros [He|(q & c & c' & Hc & Hc' & Hlt & Hy & Hz)] Hin.
  - apply (encloses_lt ch Hwf) in He. destruct Hin as [->|Hin]; [lia|].
    apply (encloses_lt ch Hwf) in Hin. lia.
  - assert (within ch c z) as Hz'.
    { destruct Hin as [->|Hin]; [done|]. destruct Hy as [->|Hy]; [by right|].
      right. by eapply (encloses_trans ch). }
    assert (c = c') as -> by by apply (directly_below_unique ch Hwf (Some q) z). lia.
Qed.

Lemma sub_NoDup H a x : wfa ch H a → alive a x → NoDup (sub a x).
Proof.
  intros Hw Hx. pose proof (sub_sorted _ _ _ Hw Hx) as Hs.
  induction Hs as [|y l Hs IH Hall]; constructor; [|done].
  intros Hin. rewrite Forall_forall in Hall. apply Hall in Hin. apply exit_before_not in Hin.
  apply Hin. by left.
Qed.

(** ** The outermost unstable state *)
Definition unstf (a : acore) (L : list aid) (u : option aid) : option aid :=
  fold_left (λ u x, if bool_decide (u = None ∨ u = Some x) then ctx_of ch a x.1 else u) L u.

Lemma unstf_app a L L' u : unstf a (L ++ L') u = unstf a L' (unstf a L u).
Proof. apply fold_left_app. Qed.
Lemma unstf_other a L w : w ∉ L → unstf a L (Some w) = Some w.
Proof.
  induction L as [|x L IH]; [done|]. intros [Hne Hn]%not_elem_of_cons. simpl.
  rewrite bool_decide_false; [by apply IH|]. intros [|]; congruence.
Qed.

Lemma unst_leave a L a' :
  (∀ x, x ∈ L → alive a x) → StronglySorted (λ y z : aid, ctx_of ch a z.1 ≠ Some y) L →
  (∀ z, z ∈ L → ctx_of ch a' z.1 = ctx_of ch a z.1) →
  aunst (leave L a') = unstf a L (aunst a').
Proof.
  revert a'. induction L as [|x L IH]; intros a' Hal Hs Hc; [done|]. rewrite leave_cons.
  apply StronglySorted_inv in Hs as [Hs Hall]. rewrite IH.
  - destruct (left_fields ch x a') as (_ & _ & _ & _ & ->). simpl. by rewrite Hc by left.
  - intros z Hz. apply Hal. by right.
  - done.
  - intros z Hz. rewrite <-(Hc z) by by right. apply ctx_of_other. intros q Hq.
    destruct (left_fields ch x a') as (-> & _). apply lookup_delete_ne. intros Heq.
    rewrite Forall_forall in Hall. apply (Hall z Hz). unfold ctx_of. rewrite Hq, <-Heq.
    apply Hal. left.
Qed.

Lemma elem_of_concat_map {A B} (f : A → list B) l v :
  v ∈ concat (map f l) ↔ ∃ y, y ∈ l ∧ v ∈ f y.
Proof.
  rewrite elem_of_list_In, in_concat. split.
  - intros (k & Hk & Hv). apply in_map_iff in Hk as (y & <- & Hy). exists y.
    by rewrite !elem_of_list_In.
  - intros (y & Hy & Hv). exists (f y). split; [|by apply elem_of_list_In].
    apply in_map_iff. exists y. split; [done|]. by apply elem_of_list_In.
Qed.

Lemma unstf_sub H a x u : wfa ch H a → alive a x →
  (u = None ∨ ∃ w, u = Some w ∧ w ∈ sub a x) → unstf a (sub a x) u = ctx_of ch a x.1.
Proof.
  intros Hw. remember (ncls ch - x.1) as n eqn:Hn. revert x Hn u.
  induction (lt_wf n) as [n _ IH]. intros x Hn u Hx Hu. subst n.
  assert (∀ y, y ∈ rev (kids a x.1) → alive a y ∧ parent ch y.1 = Some x.1 ∧ ncls ch - y.1 < ncls ch - x.1) as Hk.
  { intros y Hy. rewrite elem_of_rev in Hy. pose proof (kids_lt _ _ _ _ Hw Hy).
    apply (elem_of_kids ch Hwf _ _ _ _ Hw) in Hy as [Hy Hp]. split_and!; [done..|lia]. }
  rewrite (sub_unfold _ _ _ Hw) in *. rewrite unstf_app.
  assert (unstf a (concat (map (sub a) (rev (kids a x.1)))) u = Some x ∨
          unstf a (concat (map (sub a) (rev (kids a x.1)))) u = None) as Hmid.
  { assert (u = Some x ∨ u = None ∨ ∃ w, u = Some w ∧ w ∈ concat (map (sub a) (rev (kids a x.1)))) as Hu'.
    { destruct Hu as [->|(w & -> & [Hin| ->%elem_of_list_singleton]%elem_of_app)]; eauto. }
    clear Hu. revert u Hu'. induction (rev (kids a x.1)) as [|k ks IHk]; intros u Hu.
    - simpl. destruct Hu as [->|[->|(w & -> & Hin)]]; [by left|by right|by apply elem_of_nil in Hin].
    - destruct (Hk k) as (Hka & Hkp & Hkn); [left|]. simpl. rewrite unstf_app.
      apply IHk; [intros y Hy; apply Hk; by right|].
      assert (ctx_of ch a k.1 = Some x) as Hkc. { unfold ctx_of. rewrite Hkp. done. }
      assert (∀ u, u = None ∨ (∃ w, u = Some w ∧ w ∈ sub a k) → unstf a (sub a k) u = Some x) as Hsub.
      { intros u' Hu'. rewrite (IH (ncls ch - k.1)); done. }
      destruct Hu as [->|[->|(w & -> & Hin)]].
      + left. apply unstf_other. intros Hin. apply (elem_of_sub _ _ _ _ Hw Hka) in Hin as [_ Hin].
        apply (parent_lt _ Hwf) in Hkp. destruct Hin as [Hin|Hin]; [lia|].
        apply (encloses_lt ch Hwf) in Hin. lia.
      + left. apply Hsub. by left.
      + destruct (decide (w ∈ sub a k)) as [Hink|Hnk].
        * left. apply Hsub. right. eauto.
        * rewrite unstf_other by done. right. right. exists w. split; [done|].
          cbn [map concat] in Hin. apply elem_of_app in Hin as [|]; done. }
  simpl. destruct Hmid as [->| ->]; rewrite bool_decide_true; auto.
Qed.

(** ** The chain of outer states left with [x] *)
Definition top (H : list aid) (a : acore) (x : aid) : aid := default x (last (up H a x)).

Lemma up_ind (P : aid → Prop) (H H' : list aid) a : wfa ch H' a →
  (∀ x, alive a x → (∀ q, ctx_of ch a x.1 = Some q → alive a q → kids a q.1 = [x] → q ∉ H → P q) → P x) →
  ∀ x, alive a x → P x.
Proof.
  intros Hw HP x. remember x.1 as n eqn:Hn. revert x Hn. induction (lt_wf n) as [n _ IH].
  intros x -> Hx. apply HP; [done|]. intros q Hc Hq _ _. destruct x as [c p].
  destruct (ctx_of_alive _ _ _ _ _ _ Hw Hx Hc) as [_ Hp]. apply (parent_lt _ Hwf) in Hp.
  by apply (IH q.1).
Qed.

Lemma up_facts H H' a x : wfa ch H' a → alive a x →
  (∀ q, q ∈ up H a x → alive a q ∧ encloses ch (Some q.1) x.1 ∧ q ∉ H ∧ length (kids a q.1) = 1) ∧
  StronglySorted (λ y z : aid, encloses ch (Some z.1) y.1) (up H a x) ∧
  alive a (top H a x) ∧ within ch (top H a x).1 x.1 ∧
  (∀ q, ctx_of ch a (top H a x).1 = Some q → ¬ (kids a q.1 = [top H a x] ∧ q ∉ H)) ∧
  unstf a (up H a x) (ctx_of ch a x.1) = ctx_of ch a (top H a x).1.
Proof.
  intros Hw. revert x. apply (up_ind _ H H' a Hw). intros x Hx IH. unfold top.
  rewrite (up_unfold _ _ _ _ Hw Hx). destruct (ctx_of ch a x.1) as [q|] eqn:Hc.
  2:{ simpl. split_and!; try done; [|constructor|by left|by rewrite Hc..]. by intros q Hq%elem_of_nil. }
  destruct x as [c p]. destruct (ctx_of_alive _ _ _ _ _ _ Hw Hx Hc) as [Hq Hp].
  destruct (decide _) as [[Hk Hn]|Hn].
  2:{ simpl. split_and!; try done; [|constructor|by left|].
      - by intros ? ?%elem_of_nil.
      - intros q' Hq'. simpl in Hc. rewrite Hc in Hq'. by injection Hq' as <-. }
  destruct (IH q eq_refl Hq Hk Hn) as (H1 & H2 & H3 & H4 & H5 & H6).
  assert (encloses ch (Some q.1) c) as Hqc by (rewrite <-Hp; constructor).
  assert (default (c, p) (last (q :: up H a q)) = top H a q) as Htop.
  { unfold top. by rewrite last_cons; destruct (last (up H a q)). }
  rewrite Htop. split_and!.
  - intros z [->|Hz]%elem_of_cons.
    + split_and!; [done|done|done|by rewrite Hk].
    + destruct (H1 z Hz) as (? & Hz' & ? & ?). split_and!; try done. simpl. by eapply (encloses_trans ch).
  - constructor; [done|]. apply Forall_forall. intros z Hz. by destruct (H1 z Hz) as (_ & ? & _).
  - done.
  - simpl. right. destruct H4 as [H4|H4]; [by rewrite <-H4|]. by eapply (encloses_trans ch).
  - done.
  - simpl. rewrite bool_decide_true by by right. done.
Qed.

(** Everything that is left when [x] is removed. *)
Definition gone (H : list aid) (a : acore) (x : aid) : list aid := sub a x ++ up H a x.

Lemma gone_alive H H' a x y : wfa ch H' a → alive a x → y ∈ gone H a x → alive a y.
Proof.
  intros Hw Hx [Hy|Hy]%elem_of_app.
  - by apply (elem_of_sub _ _ _ _ Hw Hx) in Hy as [? _].
  - by apply (up_facts H _ _ _ Hw Hx) in Hy as [? _].
Qed.

Lemma gone_sorted H H' a x : wfa ch H' a → alive a x →
  StronglySorted (λ y z : aid, exit_before ch y.1 z.1) (gone H a x).
Proof.
  intros Hw Hx. destruct (up_facts H _ _ _ Hw Hx) as (H1 & H2 & _). apply sorted_app.
  - by eapply sub_sorted.
  - induction H2 as [|y l Hs IH Hall]; constructor.
    + apply IH. intros q Hq. apply H1. by right.
    + rewrite Forall_forall in *. intros z Hz. left. by apply Hall.
  - intros u v Hu Hv. left. destruct (H1 v Hv) as (_ & Hv' & _).
    apply (elem_of_sub _ _ _ _ Hw Hx) in Hu as [_ [->|Hu]]; [done|]. by eapply (encloses_trans ch).
Qed.

Lemma exit_before_ctx H a y z : wfa ch H a → alive a z → exit_before ch y.1 z.1 → ctx_of ch a z.1 ≠ Some y.
Proof.
  intros Hw Hz He Hc. apply exit_before_not in He. apply He. right. destruct z as [c p].
  destruct (ctx_of_alive _ _ _ _ _ _ Hw Hz Hc) as [_ Hp]. simpl. rewrite <-Hp. constructor.
Qed.

Lemma unst_gone H H' a x : wfa ch H' a → alive a x →
  (aunst a = None ∨ ∃ w, aunst a = Some w ∧ within ch x.1 w.1) →
  aunst (leave (gone H a x) a) = ctx_of ch a (top H a x).1.
Proof.
  intros Hw Hx Hu. rewrite (unst_leave a).
  - unfold gone. rewrite unstf_app, (unstf_sub _ _ _ _ Hw Hx).
    + by apply (up_facts H _ _ _ Hw Hx).
    + destruct Hu as [->|(w & Hu & Hin)]; [by left|]. right. exists w. split; [done|].
      apply (elem_of_sub _ _ _ _ Hw Hx). split; [|done]. by apply (wa_unst _ _ _ Hw).
  - intros y. by eapply gone_alive.
  - assert (∀ y, y ∈ gone H a x → alive a y) as Hal by (intros y; by eapply gone_alive).
    pose proof (gone_sorted H _ _ _ Hw Hx) as Hs.
    induction Hs as [|y l Hs IH Hall]; constructor.
    + apply IH. intros z Hz. apply Hal. by right.
    + rewrite Forall_forall in *. intros z Hz. eapply exit_before_ctx; [done| |by apply Hall].
      apply Hal. by right.
  - done.
Qed.


Lemma up_agree H H1 H2 a a' x : wfa ch H1 a → wfa ch H2 a' → alive a x → alive a' x →
  (∀ r, encloses ch (Some r) x.1 → occ a' !! region ch r = occ a !! region ch r) →
  (∀ r k, encloses ch (Some r) x.1 → occ a' !! (Some r, k) = occ a !! (Some r, k)) →
  up H a' x = up H a x.
Proof.
  intros Hw Hw'. unfold up. generalize (Datatypes.S x.1) as n. intros n. revert x.
  induction n as [|n IH]; intros x Hx Hx' Hr Hk; [done|]. simpl.
  assert (ctx_of ch a' x.1 = ctx_of ch a x.1) as ->.
  { apply ctx_of_other. intros q Hq. apply Hr. rewrite <-Hq. constructor. }
  destruct (ctx_of ch a x.1) as [q|] eqn:Hc; [|done].
  destruct x as [c p]. destruct (ctx_of_alive _ _ _ _ _ _ Hw Hx Hc) as [Hq Hp].
  assert (encloses ch (Some q.1) c) as Hqc by (rewrite <-Hp; constructor).
  assert (kids a' q.1 = kids a q.1) as ->.
  { apply kids_other. intros k. by apply Hk. }
  destruct (decide _); [|done]. f_equal. apply IH; [done| | |].
  - unfold Abs.alive. by rewrite Hr.
  - intros r Hrq. apply Hr. by eapply (encloses_trans ch).
  - intros r k Hrq. apply Hk. by eapply (encloses_trans ch).
Qed.

Lemma kids_NoDup H a c : wfa ch H a → NoDup (kids a c).
Proof.
  intros Hw. pose proof (kids_sorted _ _ c Hw) as Hs.
  induction Hs as [|y l Hs IH Hall]; constructor; [|done].
  intros Hin. rewrite Forall_forall in Hall. apply Hall in Hin. lia.
Qed.

Lemma kids_left H a x q : wfa ch H a → alive a x → ctx_of ch a x.1 = Some q →
  (kids (left_ ch x a) q.1 = [] ↔ kids a q.1 = [x]).
Proof.
  intros Hw Hx Hc. pose proof (ctx_kid ch Hwf _ _ _ _ Hw Hx Hc) as Hk.
  destruct x as [c p]. destruct (ctx_of_alive _ _ _ _ _ _ Hw Hx Hc) as [Hq Hp]. set (x := (c, p)) in *.
  assert (∀ k y, occ (left_ ch x a) !! (Some q.1, k) = Some y ↔
    occ a !! (Some q.1, k) = Some y ∧ (Some q.1, k) ≠ region ch x.1) as Hocc.
  { intros k y. destruct (left_fields ch x a) as (-> & _). rewrite lookup_delete_Some.
    split; intros [? ?]; split; congruence. }
  split.
  - intros Hnil. pose proof (kids_NoDup _ _ q.1 Hw) as Hnd.
    assert (∀ y, y ∈ kids a q.1 → y = x) as Hall.
    { intros y Hy. destruct (decide (y = x)) as [|Hne]; [done|]. exfalso.
      apply (elem_of_kids ch Hwf _ _ _ _ Hw) in Hy as [Hy Hyp].
      rewrite kids_nil in Hnil. specialize (Hnil (pos ch y.1) (pos_lt _ Hwf _ _ Hyp)).
      assert (occ (left_ ch x a) !! (Some q.1, pos ch y.1) = Some y) as Heq; [|congruence].
      apply Hocc. unfold Abs.alive, region in Hy. rewrite Hyp in Hy. split; [done|].
      intros Heq. apply Hne. unfold region in Heq. apply (alive_region a); [unfold Abs.alive, region; by rewrite Hyp|done|].
      unfold region. rewrite Hyp. done. }
    destruct (kids a q.1) as [|y l]; [by apply elem_of_nil in Hk|].
    assert (y = x) as -> by (apply Hall; left). destruct l as [|z l]; [done|]. exfalso.
    assert (z = x) as -> by (apply Hall; right; left). apply NoDup_cons in Hnd as [Hnd _].
    apply Hnd. left.
  - intros Heq. apply kids_nil. intros k Hlt.
    destruct (occ (left_ ch x a) !! (Some q.1, k)) as [y|] eqn:E; [|done]. exfalso.
    apply Hocc in E as [E Hne]. apply Hne.
    assert (y ∈ kids a q.1) as Hin.
    { unfold Abs.kids. apply elem_of_list_omap. exists k. split; [|done]. apply elem_of_seq. lia. }
    rewrite Heq in Hin. apply elem_of_list_singleton in Hin as ->.
    by apply (wa_reg _ _ _ Hw) in E.
Qed.

(** The active objects strictly inside [w]. *)
Definition insides (a : acore) (w : aid) : list aid := concat (map (sub a) (rev (kids a w.1))).
Lemma sub_insides H a w : wfa ch H a → sub a w = insides a w ++ [w].
Proof. apply sub_unfold. Qed.
Lemma elem_of_insides H a w y : wfa ch H a → alive a w →
  (y ∈ insides a w ↔ alive a y ∧ encloses ch (Some w.1) y.1).
Proof.
  intros Hw Hx. pose proof (elem_of_sub H a w y Hw Hx) as Hy. rewrite (sub_insides _ _ _ Hw) in Hy.
  rewrite elem_of_app, elem_of_list_singleton in Hy. split.
  - intros Hin. destruct Hy as [Hy _]. destruct Hy as [Hya [Heq|He]]; [by left| |done]. exfalso.
    assert (y = w) as -> by (by apply (alive_unique a)).
    pose proof (sub_NoDup _ _ _ Hw Hx) as Hnd. rewrite (sub_insides _ _ _ Hw) in Hnd.
    apply NoDup_app in Hnd as (_ & Hnd & _). apply (Hnd w Hin). left.
  - intros [Hya He]. destruct Hy as [_ Hy]. destruct Hy as [?| ->]; [split; [done|by right]|done|].
    apply (encloses_lt ch Hwf) in He. lia.
Qed.
Lemma insides_sorted H a w : wfa ch H a → alive a w →
  StronglySorted (λ y z : aid, exit_before ch y.1 z.1) (insides a w).
Proof.
  intros Hw Hx. pose proof (sub_sorted _ _ _ Hw Hx) as Hs. rewrite (sub_insides _ _ _ Hw) in Hs.
  induction (insides a w) as [|y l IH]; [constructor|]. cbn [app] in Hs.
  apply StronglySorted_inv in Hs as [Hs Hall]. constructor; [by apply IH|]. by apply Forall_app in Hall as [? _].
Qed.

Lemma unstf_insides H a w u : wfa ch H a → alive a w → kids a w.1 ≠ [] →
  (u = None ∨ ∃ v, u = Some v ∧ v ∈ insides a w) → unstf a (insides a w) u = Some w.
Proof.
  intros Hw Hx Hne Hu. unfold insides in *.
  assert (∀ y, y ∈ rev (kids a w.1) → alive a y ∧ parent ch y.1 = Some w.1) as Hk.
  { intros y Hy. rewrite elem_of_rev in Hy. by apply (elem_of_kids ch Hwf _ _ _ _ Hw) in Hy. }
  assert (u = Some w ∨ (u = None ∧ rev (kids a w.1) ≠ []) ∨
    ∃ v, u = Some v ∧ v ∈ concat (map (sub a) (rev (kids a w.1)))) as Hu'.
  { destruct Hu as [->|Hu]; [right; left|by right; right]. split; [done|]. intros Hr. apply Hne.
    rewrite <-(rev_involutive (kids a w.1)), Hr. done. }
  clear Hu Hne. revert u Hu'. induction (rev (kids a w.1)) as [|k ks IHk]; intros u Hu.
  - simpl. destruct Hu as [->|[[_ ?]|(v & -> & Hin)]]; [done|done|by apply elem_of_nil in Hin].
  - destruct (Hk k) as (Hka & Hkp); [left|]. cbn [map concat] in *. rewrite unstf_app.
    apply IHk; [intros y Hy; apply Hk; by right|].
    assert (ctx_of ch a k.1 = Some w) as Hkc. { unfold ctx_of. rewrite Hkp. done. }
    assert (∀ u, u = None ∨ (∃ v, u = Some v ∧ v ∈ sub a k) → unstf a (sub a k) u = Some w) as Hsub.
    { intros u' Hu'. by rewrite (unstf_sub _ _ _ _ Hw Hka Hu'). }
    destruct Hu as [->|[[-> _]|(v & -> & Hin)]].
    + left. apply unstf_other. intros Hin. apply (elem_of_sub _ _ _ _ Hw Hka) in Hin as [_ Hin].
      apply (parent_lt _ Hwf) in Hkp. destruct Hin as [Hin|Hin]; [lia|].
      apply (encloses_lt ch Hwf) in Hin. lia.
    + left. apply Hsub. by left.
    + destruct (decide (v ∈ sub a k)) as [Hink|Hnk].
      * left. apply Hsub. right. eauto.
      * rewrite unstf_other by done. right. right. exists v. split; [done|].
        apply elem_of_app in Hin as [|]; done.
Qed.

Lemma unst_insides H a w : wfa ch H a → alive a w → kids a w.1 ≠ [] →
  (aunst a = None ∨ ∃ v, aunst a = Some v ∧ encloses ch (Some w.1) v.1) →
  aunst (leave (insides a w) a) = Some w.
Proof.
  intros Hw Hx Hne Hu. assert (∀ y, y ∈ insides a w → alive a y) as Hal.
  { intros y Hy. by apply (elem_of_insides _ _ _ _ Hw Hx) in Hy as [? _]. }
  rewrite (unst_leave a).
  - apply (unstf_insides H); [done..|].
    destruct Hu as [->|(v & Hu & Hin)]; [by left|]. right. exists v. split; [done|].
    apply (elem_of_insides _ _ _ _ Hw Hx). split; [|done]. by apply (wa_unst _ _ _ Hw).
  - done.
  - pose proof (insides_sorted _ _ _ Hw Hx) as Hs.
    induction Hs as [|y l Hs IH Hall]; constructor.
    + apply IH. intros z Hz. apply Hal. by right.
    + rewrite Forall_forall in *. intros z Hz. eapply exit_before_ctx; [done| |by apply Hall].
      apply Hal. by right.
  - done.
Qed.

(** Leaving what is inside [w] first and then the rest of what is inside [z] leaves what is inside [z]. *)
Lemma leave_insides_sub H H' a w z r : wfa ch H a → wfa ch H' (leave (insides a w) a) →
  alive a w → alive a z → within ch z.1 w.1 →
  let a2 := leave (insides a w) a in
  alive a2 z ∧ occ (leave (sub a2 z) a2) !! r = occ (leave (sub a z) a) !! r.
Proof.
  intros Hw Hw2 Hwa Hz Hin a2.
  assert (∀ y, y ∈ insides a w → alive a y) as Hal.
  { intros y Hy. by apply (elem_of_insides _ _ _ _ Hw Hwa) in Hy as [? _]. }
  assert (alive a2 z) as Hz2.
  { apply leave_alive; [done|]. split; [done|]. intros Hi. apply (elem_of_insides _ _ _ _ Hw Hwa) in Hi as [_ Hi].
    apply (encloses_lt ch Hwf) in Hi. destruct Hin as [Hin|Hin]; [lia|]. apply (encloses_lt ch Hwf) in Hin. lia. }
  split; [done|]. rewrite (occ_leave (sub a2 z)), (occ_leave (sub a z)).
  change (occ a2) with (occ (leave (insides a w) a)). rewrite (occ_leave (insides a w)).
  assert (∀ y, y ∈ sub a z ↔ y ∈ sub a2 z ∨ y ∈ insides a w) as Hsub.
  { intros y. rewrite (elem_of_sub _ _ _ _ Hw Hz). unfold a2. rewrite (elem_of_sub _ _ _ _ Hw2 Hz2). rewrite leave_alive by done.
    rewrite (elem_of_insides _ _ _ _ Hw Hwa). split.
    - intros [H1 H2]. destruct (decide (y ∈ insides a w)) as [Hi|Hi].
      + right. by apply (elem_of_insides _ _ _ _ Hw Hwa) in Hi.
      + left. rewrite (elem_of_insides _ _ _ _ Hw Hwa) in Hi. tauto.
    - intros [[[H1 _] H2]|[H1 H2]]; [done|]. split; [done|]. right.
      destruct Hin as [Hin|Hin]; [by rewrite <-Hin|]. by eapply (encloses_trans ch). }
  assert (r ∈ map (λ x : aid, region ch x.1) (sub a z) ↔
    r ∈ map (λ x : aid, region ch x.1) (sub a2 z) ∨ r ∈ map (λ x : aid, region ch x.1) (insides a w)) as Hr.
  { rewrite !elem_of_list_In, !in_map_iff. split.
    - intros (y & <- & Hy). apply elem_of_list_In, Hsub in Hy as [Hy|Hy]; apply elem_of_list_In in Hy; eauto.
    - intros [(y & <- & Hy)|(y & <- & Hy)]; exists y; (split; [done|]); apply elem_of_list_In, Hsub; rewrite !elem_of_list_In; tauto. }
  repeat destruct (decide _); tauto.
Qed.

End leave.
