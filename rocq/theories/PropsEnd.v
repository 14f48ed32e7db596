(** * C57: destruction of a scheduler

    [unused S]: no thread is inside a member function of the scheduler, that is, it may be destroyed.
    [sched_destroy order S]: what its destructor does; [order] is the order of the holders in the set, which depends
    on their addresses. *)
From stdpp Require Import gmap.
From Verif Require Import FifoDemo PropsSched AsyncInv PropsAsync.
From Verif Require Import QueueMono.
From Verif Require Import Demo.
Local Notation view := SchedInv.view.

Section destroy.
Implicit Types (c : cont) (h : handle).

(** A shared_ptr to the holder fewer. *)
Definition fewer h (p : part) : part :=
  Part (pred (puse p)) (pproc p) (pset p) (pheld p)
    (plog p ++ if decide (pred (puse p) = 0) then if pproc p then [ADestruct h] else [] else []).
Lemma view_fewer h c : view h (unshare h c) = fewer h (view h c).
Proof. by rewrite view_unshare_same. Qed.

Lemma drop_other h q c : IUser (RCreate h) ∉ q → view h (foldl drop_item c q) = view h c.
Proof.
  revert c. induction q as [|i q IH]; simpl; intros c H; [done|]. apply not_elem_of_cons in H as [Hi Hq].
  rewrite IH by done. destruct i as [[g| | | | |]|]; simpl; try done. apply view_unshare. congruence.
Qed.
Lemma drop_it h q1 q2 c : IUser (RCreate h) ∉ q1 → IUser (RCreate h) ∉ q2 →
  view h (foldl drop_item c (q1 ++ IUser (RCreate h) :: q2)) = fewer h (view h c).
Proof. intros H1 H2. rewrite foldl_app. simpl. by rewrite drop_other, view_fewer, drop_other. Qed.
Lemma order_other h l c : h ∉ l → view h (foldl (λ c h, unshare h c) c l) = view h c.
Proof.
  revert c. induction l as [|g l IH]; simpl; intros c H; [done|]. apply not_elem_of_cons in H as [Hg Hl].
  by rewrite IH, view_unshare.
Qed.
Lemma order_it h l c : NoDup l → h ∈ l → view h (foldl (λ c h, unshare h c) c l) = fewer h (view h c).
Proof.
  intros Hn (l1 & l2 & ->)%elem_of_list_split. apply NoDup_app in Hn as (_ & H1 & H2).
  apply NoDup_cons in H2 as [H2 _]. assert (h ∉ l1) by (intros H; apply (H1 h H); by left).
  rewrite foldl_app. simpl. by rewrite order_other, view_fewer, order_other.
Qed.

Definition emptied (p : part) : part := Part (puse p) (pproc p) false (pheld p) (plog p).
Lemma view_emptied h c : view h (set_set ∅ c) = emptied (view h c).
Proof. unfold view, emptied. done. Qed.

(** What the destructor does to one holder. *)
Lemma destroyed_view order S h : order ≡ₚ elements (cset (scont S)) →
  let p := view h (foldl drop_item (scont S) (fqueue (sf S))) in
  view h (sched_destroy order S) = if pset (view h (scont S)) then fewer h (emptied p) else emptied p.
Proof.
  intros Ho p. unfold sched_destroy. rewrite <-view_set. case_bool_decide as Hs.
  - rewrite order_it, view_emptied; [done| |].
    + rewrite Ho. apply NoDup_elements.
    + by rewrite Ho, elem_of_elements.
  - rewrite order_other, view_emptied; [done|]. by rewrite Ho, elem_of_elements.
Qed.

(** The creation of a processor is in the queue at most once, and is not if it has been executed. *)
Lemma queue_split h s : IUser (RCreate h) ∈ fqueue s → 
  (∃ L, reqs_of h (pushed (ftr s)) = RCreate h :: L ∧ RCreate h ∉ L) → Inv s → fpc s worker = TUser →
  ∃ q1 q2, fqueue s = q1 ++ IUser (RCreate h) :: q2 ∧ IUser (RCreate h) ∉ q1 ∧ IUser (RCreate h) ∉ q2.
Proof.
  intros Hq (L & HL & Hn) I Hw. pose proof (i_fifo _ I) as If. rewrite Hw in If. simpl in If.
  apply elem_of_list_split in Hq as (q1 & q2 & Hq). exists q1, q2. split; [done|].
  rewrite If, Hq, !reqs_of_app, reqs_of_for in HL by done.
  destruct (reqs_of h (started (ftr s)) ++ reqs_of h q1) as [|r R] eqn:E; rewrite app_assoc, E in HL; simpl in HL.
  - injection HL as <-. apply app_eq_nil in E as [_ E]. split; intros H%(reqs_of_elem h (RCreate h)); try done.
    rewrite E in H. by apply elem_of_nil in H.
  - injection HL as _ <-. destruct Hn. apply elem_of_app. right. by left.
Qed.
Lemma queue_none h s r R : reqs_of h (started (ftr s)) = r :: R →
  (∃ L, reqs_of h (pushed (ftr s)) = RCreate h :: L ∧ RCreate h ∉ L) → Inv s → fpc s worker = TUser →
  IUser (RCreate h) ∉ fqueue s.
Proof.
  intros HR (L & HL & Hn) I Hw Hq. pose proof (i_fifo _ I) as If. rewrite Hw in If. simpl in If.
  rewrite If, reqs_of_app, HR in HL. simpl in HL. injection HL as _ <-. destruct Hn. apply elem_of_app. right.
  by apply reqs_of_elem.
Qed.

Lemma destroyed wait S order h : sreach wait S → unused S → ¬ faulted (scont S) →
  order ≡ₚ elements (cset (scont S)) → h ≠ 0 →
  cuse (sched_destroy order S) h = 0 ∧
  (¬ ctor_threw h (ftr (sf S)) →
     log_of h (clog (sched_destroy order S)) = served h (reqs_of h (started (ftr (sf S))) ++ [RDestroy h])) ∧
  (ctor_threw h (ftr (sf S)) → log_of h (clog (sched_destroy order S)) = log_of h (clog (scont S))).
Proof.
  intros Hr [Hst Hpc] Hf Ho Hh. rewrite view_use, !view_log. rewrite (destroyed_view _ _ _ Ho).
  pose proof (freach_inv _ _ (sreach_freach _ _ Hr)) as I. pose proof (J_reach _ _ _ Hh Hr) as HJ.
  pose proof (cur_none_held _ _ HJ Hst) as Hp. destruct HJ as [_ HJ].
  pose proof (K_reach _ _ _ Hh Hr) as HK. pose proof (Hpc worker) as Hw.
  assert (∀ t, outstanding (fpc (sf S) t) = []) as Hout by (intros t; by rewrite Hpc).
  pose proof (i_fifo _ I) as If. rewrite Hw in If. simpl in If.
  assert (∀ r, cur (sf S) = Some r → False) as Hcur by (unfold cur; rewrite Hst; done).
  assert (∀ r R, reqs_of h (started (ftr (sf S))) = r :: R →
    view h (foldl drop_item (scont S) (fqueue (sf S))) = view h (scont S)) as Hsame.
  { intros r R HR. apply drop_other.
    destruct HK as [(_ & _ & H3)|[(_ & H3 & _)|(_ & H2 & _)]]; [| |by eapply queue_none].
    - rewrite If, reqs_of_app, HR in H3. done.
    - rewrite If, reqs_of_app, HR in H3. done. }
  destruct HJ as [(HR & Hpr & Hps & Hpl & Hl & Hm1 & Hm2)|[(Ht & L & HR & Hpr & _ & HL)|[(_ & Hc & _)|
    [(L & HR & Hpr & _ & HL) Hnt]]]].
  - (* not created yet *)
    rewrite Hps, HR. 
    assert (¬ ctor_threw h (ftr (sf S))) as Hnt by (intros H; by destruct (threw_started _ _ H)).
    assert (puse (view h (foldl drop_item (scont S) (fqueue (sf S)))) = 0 ∧
      plog (view h (foldl drop_item (scont S) (fqueue (sf S)))) = []) as [H1 H2]; [|unfold emptied; cbn [puse plog]; by rewrite H1, H2].
    destruct HK as [(Hm & _ & H3)|[(_ & _ & t0 & H3 & _)|(Hm & H3 & _)]].
    + rewrite drop_other; [auto|]. intros Hq%(reqs_of_elem h (RCreate h)); [|done].
      rewrite If, reqs_of_app in H3. apply app_eq_nil in H3 as [_ H3]. rewrite H3 in Hq. by apply elem_of_nil in Hq.
    + by rewrite Hout in H3.
    + destruct (queue_split h (sf S)) as (q1 & q2 & -> & Hq1 & Hq2); try done.
      { destruct H3 as (L & H3 & _). rewrite If, reqs_of_app, HR in H3. simpl in H3.
        assert (RCreate h ∈ reqs_of h (fqueue (sf S))) as Hin by (rewrite H3; by left).
        apply elem_of_list_omap in Hin as (i & Hi & E). destruct i as [r|]; [|done]. case_decide; by simplify_eq. }
      rewrite drop_it by done. unfold fewer. cbn [puse pproc pset pheld plog]. rewrite Hm1, Hpr, Hl by done. done.
  - (* its constructor threw *)
    rewrite (Hsame _ _ HR). destruct HL as [(-> & Hs & Hu & _ & Hl)|[(L' & -> & Hs & Hu & Hl)|[(r & -> & _ & _ & Hl)|(Hs & Hu & _ & Hl)]]].
    + rewrite Hs. unfold fewer, emptied. cbn [puse pproc pset pheld plog]. rewrite Hu, Hpr, Hl. split; [done|]. by split.
    + rewrite Hs. rewrite Hp in Hu. unfold emptied. cbn [puse pproc pset pheld plog]. rewrite Hu. split; [done|]. by split.
    + destruct Hf. exists h. assert (AFault h ∈ log_of h (clog (scont S))) as Hin.
      { rewrite view_log, Hl. right. by left. }
      by apply elem_of_list_filter in Hin as [_ Hin].
    + rewrite Hs. unfold emptied. cbn [puse pproc pset pheld plog]. rewrite Hu. split; [done|]. by split.
  - by destruct (Hcur _ Hc).
  - rewrite (Hsame _ _ HR). rewrite Hp in HL.
    assert (∀ r', r' ∈ L → handle_of r' = Some h) as Hall.
    { intros r' H. eapply (reqs_of_all h (started (ftr (sf S)))). rewrite HR. by right. }
    destruct HL as [(Hd & Hs & Hu & Hl)|(Hd & Hs & Hu & Hl)]; rewrite Hs; unfold fewer, emptied; cbn [puse pproc pset pheld plog].
    + rewrite Hu, Hpr, Hl, HR. simpl. split; [done|]. split; [|by intros ?%Hnt]. intros _. by rewrite serve_app.
    + rewrite app_nil_r in Hl. rewrite Hu, Hl, HR. split; [done|]. split; [|done]. intros _. simpl.
      by rewrite serve_app_done.
Qed.
End destroy.

(** ** C57 *)
(** When the scheduler is destroyed, every processor experiences what it would if its destruction were requested last: it is
    destroyed if it still exists, and exactly once; requests that were still in the queue are dropped. *)
Theorem C57_processors : ∀ wait S order h, sreach wait S → unused S → order ≡ₚ elements (cset (scont S)) → h ≠ 0 →
  ¬ faulted (scont S) → ¬ ctor_threw h (ftr (sf S)) →
  log_of h (clog (sched_destroy order S)) = served h (reqs_of h (started (ftr (sf S))) ++ [RDestroy h]).
Proof. intros wait S order h Hr Hu Ho Hh Hf Ht. by apply (destroyed wait S order h Hr Hu Hf Ho Hh). Qed.
Print Assumptions C57_processors.
(** No holder is left, also none whose processor was not created yet, or threw when it was constructed. *)
Theorem C57_nothing_left : ∀ wait S order h, sreach wait S → unused S → order ≡ₚ elements (cset (scont S)) →
  ¬ faulted (scont S) → cuse (sched_destroy order S) h = 0.
Proof.
  intros wait S order h Hr Hu Ho Hf. destruct (decide (h = 0)) as [->|Hh]; [|by apply (destroyed wait S order h Hr Hu Hf Ho Hh)].
  rewrite view_use, (destroyed_view _ _ _ Ho). pose proof (zero_view _ _ Hr) as Hz. rewrite Hz. cbn [pset]. unfold emptied. cbn [puse].
  rewrite drop_other; [by rewrite Hz|]. pose proof (freach_inv _ _ (sreach_freach _ _ Hr)) as I.
  destruct (no_zero _ _ Hr) as [_ Hn]. rewrite (i_fifo _ I) in Hn. intros H. apply Hn. rewrite !elem_of_app. auto.
Qed.
Print Assumptions C57_nothing_left.
(** The machines are destroyed: each is what a machine that is used synchronously is after the calls that the requests
    executed so far stand for, followed by its destruction. *)
Theorem C57_machines : ∀ W (ch : handle → chart) (U : handle → user W) init code wait A order μ h,
  areach ch U init code wait A → unused (asched A) → order ≡ₚ elements (cset (scont (asched A))) →
  ¬ faulted (scont (asched A)) →
  (∀ g, closes ch U g (scont (asched A)) (sched_destroy order (asched A)) (amach A g) (μ g)) →
  h ≠ 0 → ¬ ctor_threw h (ftr (sf (asched A))) →
  match reqs_of h (started (ftr (sf (asched A)))) with
  | [] => μ h = Absent
  | r :: L => r = RCreate h ∧ ∃ L1 m m',
      L1 `prefix_of` L ∧ RDestroy h ∉ L1 ∧ (RDestroy h ∉ L → L1 = L) ∧ (RDestroy h ∈ L → L1 ++ [RDestroy h] `prefix_of` L) ∧
      synchronous ch U init code h L1 m ∧ destroy (ch h) (U h) m = (Ret tt, m') ∧ μ h = Dead m'
  end.
Proof.
  intros W ch U init code wait A order μ h Hr Hu Ho Hf Hc Hh Ht.
  pose proof (C50_synchronous _ _ _ _ _ _ _ _ Hr Hh Ht) as Hsy.
  destruct (C50_order _ _ _ _ _ _ _ _ Hr Hh) as [_ Hfin]. rewrite Hfin in Hsy by apply Hu. clear Hfin.
  apply areach_sreach in Hr. specialize (Hc h).
  pose proof (C57_processors _ _ _ _ Hr Hu Ho Hh Hf Ht) as Hl'.
  pose proof (C39_applied _ _ _ Hr Hh Ht (proj1 Hu)) as Hl.
  destruct (reqs_of h (started (ftr (sf (asched A))))) as [|r L] eqn:HR.
  { rewrite Hsy in Hc. by inversion Hc. }
  destruct Hsy as (-> & Ha & Hd). split; [done|].
  destruct (decide (RDestroy h ∈ L)) as [Hin|Hin].
  - destruct (first_destroy _ _ Hin) as (L1 & L2 & -> & Hn).
    destruct (Hd L1 L2 eq_refl Hn) as (m & m' & Hm & Hs & Hd').
    exists L1, m, m'. rewrite Hm in Hc. inversion Hc; subst. split_and!; try done.
    + by apply prefix_app_r.
    + intros _. exists L2. by rewrite <-app_assoc.
  - destruct (Ha Hin) as (m & Hm & Hs). rewrite Hm in Hc. inversion Hc as [? Hx|m0 x Hx]; subst; [by destruct (Hx m)|].
    assert (∀ r', r' ∈ L → handle_of r' = Some h) as Hall.
    { intros r' H. eapply (reqs_of_all h (started (ftr (sf (asched A))))). rewrite HR. by right. }
    simpl in Hl, Hl'. rewrite serve_app in Hl' by done. inversion Hx as [E|m' E E']; subst.
    + rewrite Hl, Hl' in E. simpl in E. apply (f_equal length) in E. simpl in E. rewrite app_length in E. simpl in E. lia.
    + exists L, m, m'. split_and!; try done.
Qed.
Print Assumptions C57_machines.

(** ** An example *)
(** After the schedule of C39 a third processor is to be created and an event is queued for the second machine, which is
    still running; then the scheduler is destroyed. *)
Definition office_closes : list (act req) :=
  office_day ++ queues 1 (IUser (RCreate 3)) ++ queues 2 (IUser (REvent 2 7)).
Notation state2 := (list (place * deed)).
Definition after_closing (A : @asys state2) (g : handle) : @slot state2 :=
  match amach A g with
  | Alive m => default (Alive m) (survivor (λ _, Demo.chart5) (λ _, Demo.U) g (scont (asched A))
                 (sched_destroy (elements (cset (scont (asched A)))) (asched A)) m)
  | x => x
  end.
Definition closesb (A : @asys state2) (g : handle) : bool :=
  match amach A g with
  | Alive m => bool_decide (is_Some (survivor (λ _, Demo.chart5) (λ _, Demo.U) g (scont (asched A))
                 (sched_destroy (elements (cset (scont (asched A)))) (asched A)) m))
  | _ => true
  end.
Definition small (e : fev req) : bool :=
  match e with
  | FCall t _ => t <? 4
  | FStart (IUser r) => match handle_of r with Some h => h <? 4 | None => true end
  | _ => true
  end.
Definition fits (S : sched) : bool :=
  forallb small (ftr (sf S)) && match fstack (sf S) with [] => true | _ => false end && negb (faultb (scont S))
  && forallb (λ t, match fpc (sf S) t with TUser => true | _ => false end) (seq 0 4).

Lemma fits_unused wait S : sreach wait S → fits S = true → unused S ∧ ¬ faulted (scont S) ∧
  ∀ h, 4 ≤ h → reqs_of h (started (ftr (sf S))) = [].
Proof.
  intros Hr H. pose proof (freach_inv _ _ (sreach_freach _ _ Hr)) as I.
  apply andb_true_iff in H as [[[H1 H2]%andb_true_iff H3]%andb_true_iff H4]. split; [split|split].
  - by destruct (fstack (sf S)).
  - intros t. destruct (decide (t < 4)) as [Ht|Ht].
    + rewrite forallb_forall in H4. assert (In t (seq 0 4)) as Hin by (apply in_seq; lia). apply H4 in Hin.
      by destruct (fpc (sf S) t).
    + assert (FifoSpec.asked t (ftr (sf S)) = []) as Ha.
      { clear -H1 Ht. induction (ftr (sf S)) as [|e l IH] using rev_ind; [done|]. rewrite forallb_app in H1.
        apply andb_true_iff in H1 as [Hl He]. rewrite asked_snoc, IH by done.
        destruct e as [v i|v i|v|v|n|i| | |k|b|v i]; simpl in *; auto; [|by case_decide].
        rewrite andb_true_r in He. apply Nat.ltb_lt in He. by rewrite decide_False by lia. }
      pose proof (i_ans _ I t) as Hn. rewrite Ha in Hn. simpl in Hn. assert (t ≠ worker) as Hw by lia.
      pose proof (i_prod _ I t Hw) as Hp. destruct (fpc (sf S) t); simpl in *; try done; lia.
  - apply faultb_ok. by destruct (faultb (scont S)).
  - intros h Hh. clear -H1 Hh. induction (ftr (sf S)) as [|e l IH]; [done|]. simpl in H1. apply andb_true_iff in H1 as [He Hl].
    destruct e as [v i|v i|v|v|n|[r|]| | |k|b|v i]; simpl; auto.
    unfold reqs_of in *. simpl. rewrite decide_False; [by apply IH|]. simpl in He. destruct (handle_of r) as [g|]; [|done].
    apply Nat.ltb_lt in He. intros [= ->]. lia.
Qed.

Example C57_example : ∃ A order μ, areach2 false A ∧ unused (asched A) ∧ order ≡ₚ elements (cset (scont (asched A))) ∧
  ¬ faulted (scont (asched A)) ∧
  (∀ g, closes (λ _, Demo.chart5) (λ _, Demo.U) g (scont (asched A)) (sched_destroy order (asched A)) (amach A g) (μ g)) ∧
  ¬ ctor_threw 2 (ftr (sf (asched A))) ∧
  reqs_of 2 (started (ftr (sf (asched A)))) = [RCreate 2; RInitiate 2] ∧
  reqs_of 2 (pushed (ftr (sf (asched A)))) = [RCreate 2; RInitiate 2; REvent 2 7] ∧
  cuse (scont (asched A)) 3 = 1 ∧
  clog (sched_destroy order (asched A)) =
    [AConstruct 1; AInit 1; AConstruct 2; AEvent 1 7; AInit 2; ADestruct 1; ADestruct 2] ∧
  match μ 2 with
  | Dead m => map ob (tr m) = [OReset; OCtor 0 0; OCtor 1 1; OCtor 2 3; OCtor 3 4; OCtor 4 2;
      ODtor 4 2; ODtor 3 4; ODtor 2 3; ODtor 1 1; ODtor 0 0; OReset]
  | _ => False
  end.
Proof.
  destruct (aplayed (λ _, Demo.chart5) (λ _, Demo.U) init2 ev false office_closes (λ A,
    fits (asched A) && negb (threwb 2 (ftr (sf (asched A)))) && forallb (closesb A) (seq 0 4)
    && bool_decide (reqs_of 2 (started (ftr (sf (asched A)))) = [RCreate 2; RInitiate 2])
    && bool_decide (reqs_of 2 (pushed (ftr (sf (asched A)))) = [RCreate 2; RInitiate 2; REvent 2 7])
    && bool_decide (cuse (scont (asched A)) 3 = 1)
    && bool_decide (clog (sched_destroy (elements (cset (scont (asched A)))) (asched A)) =
         [AConstruct 1; AInit 1; AConstruct 2; AEvent 1 7; AInit 2; ADestruct 1; ADestruct 2])
    && match after_closing A 2 with
       | Dead m => bool_decide (map ob (tr m) = [OReset; OCtor 0 0; OCtor 1 1; OCtor 2 3; OCtor 3 4; OCtor 4 2;
           ODtor 4 2; ODtor 3 4; ODtor 2 3; ODtor 1 1; ODtor 0 0; OReset])
       | _ => false
       end)) as (A & Hr & H); [by_eval|].
  apply andb_true_iff in H as [[[[[[[H1 H2]%andb_true_iff H3]%andb_true_iff H4%bool_decide_eq_true]%andb_true_iff
    H5%bool_decide_eq_true]%andb_true_iff H6%bool_decide_eq_true]%andb_true_iff H7%bool_decide_eq_true]%andb_true_iff H8].
  pose proof (areach_sreach _ _ _ _ _ _ Hr) as Hs. destruct (fits_unused _ _ Hs H1) as (Hu & Hf & Hn).
  exists A, (elements (cset (scont (asched A)))), (after_closing A). split_and!; try done.
  - intros g. assert (closesb A g = true) as Hc.
    { destruct (decide (g < 4)) as [Hg|Hg].
      - rewrite forallb_forall in H3. apply H3, in_seq. lia.
      - assert (reqs_of g (started (ftr (sf (asched A)))) = []) as HR by (apply Hn; lia).
        assert (¬ ctor_threw g (ftr (sf (asched A)))) as Hc by (intros Hc; by destruct (threw_started _ _ Hc)).
        assert (g ≠ 0) as Hg0 by lia. pose proof (C50_synchronous _ _ _ _ _ _ _ _ Hr Hg0 Hc) as Hsy.
        destruct (C50_order _ _ _ _ _ _ _ _ Hr Hg0) as [_ Hfin]. rewrite Hfin, HR in Hsy by apply Hu.
        unfold closesb. by rewrite Hsy. }
    unfold closesb in Hc. unfold after_closing. destruct (amach A g) as [|m|m]; try by constructor.
    apply bool_decide_eq_true in Hc as [x Hx]. rewrite Hx. apply closes_alive. by apply survivor_ok.
  - intros Ht%threwb_ok. by rewrite Ht in H2.
  - destruct (after_closing A 2); try done. by apply bool_decide_eq_true in H8.
Qed.
