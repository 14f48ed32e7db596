(** Consequences of [wf_chart]. *)
From Verif Require Export Chart.

Section facts.
Context (ch : chart).

Lemma cd_undeclared c : ncls ch ≤ c → cd ch c = dummy_cdef.
Proof.
  intros Hc. unfold cd, ncls in *. by rewrite lookup_ge_None_2.
Qed.

Context (Hwf : wf_chart ch = true).

Lemma wf_cdef c : cdef_ok ch c = true.
Proof.
  unfold wf_chart in Hwf. rewrite !andb_true_iff in Hwf. destruct Hwf as [[Hall _] _].
  destruct (decide (c < ncls ch)) as [Hlt|Hge].
  - rewrite forallb_forall in Hall. apply Hall. apply in_seq. lia.
  - unfold cdef_ok, parent, pos, inner. rewrite cd_undeclared by lia. simpl. done.
Qed.

Lemma parent_lt c q : parent ch c = Some q → q < c.
Proof.
  intros Hp. pose proof (wf_cdef c) as H. unfold cdef_ok in H. rewrite Hp in H.
  rewrite !andb_true_iff, !bool_decide_eq_true in H. tauto.
Qed.

Lemma pos_lt c q : parent ch c = Some q → pos ch c < nreg ch q.
Proof.
  intros Hp. pose proof (wf_cdef c) as H. unfold cdef_ok in H. rewrite Hp in H.
  rewrite !andb_true_iff, !bool_decide_eq_true in H. tauto.
Qed.

Lemma pos_top c : parent ch c = None → pos ch c = 0.
Proof.
  intros Hp. pose proof (wf_cdef c) as H. unfold cdef_ok in H. rewrite Hp in H.
  rewrite !andb_true_iff, !bool_decide_eq_true in H. tauto.
Qed.

Lemma pos_lt_ctx c : pos ch c < nreg_ctx ch (parent ch c).
Proof.
  destruct (parent ch c) as [q|] eqn:E; simpl.
  - by apply pos_lt.
  - rewrite (pos_top _ E). lia.
Qed.

Lemma nreg_declared c : nreg ch c ≠ 0 → c < ncls ch.
Proof.
  intros H. destruct (decide (c < ncls ch)); [done|].
  unfold nreg, inner in H. rewrite cd_undeclared in H by lia. done.
Qed.

Lemma parent_declared c q : parent ch c = Some q → c < ncls ch.
Proof.
  intros H. destruct (decide (c < ncls ch)); [done|].
  unfold parent in H. rewrite cd_undeclared in H by lia. done.
Qed.

Lemma inner_region c k i :
  inner ch c !! k = Some i → region ch (init_cls i) = (Some c, k) ∧ init_ok ch i = true.
Proof.
  intros Hi. pose proof (wf_cdef c) as H. unfold cdef_ok in H.
  rewrite !andb_true_iff in H. destruct H as [[_ H] _].
  rewrite forallb_forall in H.
  specialize (H (k, i)). simpl in H.
  rewrite andb_true_iff, bool_decide_eq_true in H.
  destruct H as [H1 H2]; [|done].
  apply elem_of_list_In. apply elem_of_list_lookup. exists k.
  rewrite list_lookup_imap, Hi. done.
Qed.

Lemma outers_f_enough n m c : c ≤ n → c ≤ m → outers_f ch n c = outers_f ch m c.
Proof.
  revert m c. induction n as [|n IH]; intros m c Hn Hm.
  - assert (c = 0) as -> by lia. destruct m; simpl; [done|].
    destruct (parent ch 0) as [q|] eqn:E; [|done]. apply parent_lt in E. lia.
  - destruct m as [|m]; simpl.
    + assert (c = 0) as -> by lia.
      destruct (parent ch 0) as [q|] eqn:E; [|done]. apply parent_lt in E. lia.
    + destruct (parent ch c) as [q|] eqn:E; [|done]. apply parent_lt in E.
      f_equal. apply IH; lia.
Qed.

Lemma outers_unfold c :
  outers ch c = match parent ch c with None => [] | Some q => q :: outers ch q end.
Proof.
  unfold outers at 1. destruct c as [|c].
  - simpl. destruct (parent ch 0) as [q|] eqn:E; [|done]. apply parent_lt in E. lia.
  - simpl. destruct (parent ch (S c)) as [q|] eqn:E; [|done]. apply parent_lt in E.
    f_equal. unfold outers. apply outers_f_enough; lia.
Qed.

Lemma wf_init : ch_init ch < ncls ch ∧ parent ch (ch_init ch) = None.
Proof.
  unfold wf_chart in Hwf. rewrite !andb_true_iff, !bool_decide_eq_true in Hwf. tauto.
Qed.

Lemma wf_reaction c r : r ∈ cd_reacts (cd ch c) → reaction_ok ch c r = true.
Proof.
  intros Hr. pose proof (wf_cdef c) as H. unfold cdef_ok in H.
  rewrite !andb_true_iff in H. destruct H as [_ H].
  rewrite forallb_forall in H. apply H. by apply elem_of_list_In.
Qed.

Lemma wf_deep_single c q : parent ch c = Some q → inherited_deep ch q = true → nreg ch c < 2.
Proof.
  intros Hp Hd. pose proof (wf_cdef c) as H. unfold cdef_ok in H. rewrite Hp, Hd in H.
  rewrite !andb_true_iff, orb_true_iff, bool_decide_eq_true in H. simpl in H.
  destruct H as [[[_ [H|H]] _] _]; [|done]. by apply bool_decide_eq_true in H.
Qed.

End facts.
