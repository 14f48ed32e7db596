(** C51: looking at the machine from a callback is safe and tells the truth. *)
From Verif Require Import Sight Demo.

(** ** Safety
    Every callback of the model first follows all the pointers that state_begin(), state_cast<>(),
    state_downcast<>() and context<>() can follow ([look_around]); C01_call says that no call ever faults.  Between
    calls the same holds, for the client and from any active state. *)
Theorem C51_between {W} (ch : chart) (U : user W) s :
  wf_chart ch = true → user_ok ch U → seen ch U s →
  look_around ch None None s = (Ret tt, s) ∧
  ∀ c p, active s (c, p) → look_around ch (Some c) (Some p) s = (Ret tt, s).
Proof.
  intros Hwf HU Hs. destruct (seen_tracks ch U Hwf HU s Hs) as (a & Ha & Et & HT). pose proof (bk_R _ _ _ Ha) as [HR _].
  apply R_readable in HR. split.
  - by apply (look_ok ch Hwf (core a)).
  - intros c p Hx. apply (look_ok ch Hwf (core a)); [done|]. apply (anchored_alive _ _ _ (c, p) HR).
    apply (tk_alive _ _ HT). rewrite <-Et. by apply (seen_active ch U Hwf HU s (c, p) Hs).
Qed.
Print Assumptions C51_between.

Example C51_between_example :
  reach Demo.chart5 Demo.U Demo.demo ∧ leaves Demo.demo = [2; 4] ∧ active Demo.demo (4, 16) ∧
  look_around Demo.chart5 (Some 4) (Some 16) Demo.demo = (Ret tt, Demo.demo).
Proof.
  assert (active Demo.demo (4, 16)) as H.
  { apply (seen_active Demo.chart5 Demo.U); [vm_compute; done|exact Demo.U_ok|by apply seen_reach, Demo.demo_reach|].
    by_compute. }
  split_and!; [exact Demo.demo_reach|by_compute|done|].
  apply (C51_between Demo.chart5 Demo.U); [vm_compute; done|exact Demo.U_ok| |done]. by apply seen_reach, Demo.demo_reach.
Qed.
(** The lookups do fail when a pointer dangles. *)
Example C51_between_wrong :
  (look_around Demo.chart5 None None
     (MSt (set_heap (delete 16 (heap (core Demo.demo))) (core Demo.demo)) (en Demo.demo))).1 = Fault FDangling ∧
  (look_around Demo.chart5 (Some 4) (Some 16)
     (MSt (set_heap (delete 15 (heap (core Demo.demo))) (core Demo.demo)) (en Demo.demo))).1 = Fault FDangling.
Proof. split; vm_compute; reflexivity. Qed.

(** ** What is found
    [sights] records, at each call of user code, how many entries the log had and the states that
    state_begin() … state_end() visit at that moment.  They are the innermost states that are alive and
    whose exit() was not called yet, each once. *)
Theorem C51_listed {W} (ch : chart) (U : user W) s n lv :
  wf_chart ch = true → user_ok ch U → seen ch U s → (n, lv) ∈ sights (en s) →
  n ≤ length (tr s) ∧ NoDup lv ∧ lv = map fst (order_of ch (take n (tr s))) ∧
  ∀ c, c ∈ lv ↔ is_leaf ch c = true ∧
    ∃ p, lives (take n (tr s)) (c, p) ∧ OExit p c ∉ map ob (take n (tr s)).
Proof.
  intros Hwf HU Hs Hn. destruct (seen_sights ch U Hwf HU s Hs n lv Hn) as [Hle ->].
  change (trace (en s)) with (tr s) in *. pose proof (seen_orderly ch U Hwf HU s Hs) as Ho.
  rewrite <-(take_drop n (tr s)) in Ho. apply orderly_prefix in Ho.
  split_and!; [done|by apply order_classes|done|]. intros c. destruct (order_staying _ _ Ho) as [_ Hi].
  rewrite elem_of_list_fmap. split.
  - intros ([c' p] & -> & [H1 H2]%Hi). split; [done|]. by exists p.
  - intros (H1 & p & H2). exists (c, p). split; [done|]. by apply Hi.
Qed.
Print Assumptions C51_listed.

(** The demo machine: before exit() of state 5 (entry 27) state 5 is off the list already; the action of the
    transition (entry 33) and the constructor of state 7 (entry 34) see state 2 only; when state 0 is left
    without exit() (entries 43, 44) nothing is on the list; the custom reaction of state 2 (entry 94) sees
    states 2 and 7. *)
Example C51_listed_example :
  seen Demo.chart5 Demo.U Demo.demo ∧ (28, [2]) ∈ sights (en Demo.demo) ∧ (34, [2]) ∈ sights (en Demo.demo) ∧
  (44, []) ∈ sights (en Demo.demo) ∧ (95, [2; 7]) ∈ sights (en Demo.demo).
Proof. split; [apply seen_reach, Demo.demo_reach|]. split_and!; by_compute. Qed.

(** Every state found by going outward from one of them (what state_cast<>() searches) is alive and is not
    being left. *)
Theorem C51_found {W} (ch : chart) (U : user W) s n lv c d :
  wf_chart ch = true → user_ok ch U → seen ch U s → (n, lv) ∈ sights (en s) → c ∈ lv → within ch d c →
  ∃ p, lives (take n (tr s)) (d, p) ∧ OExit p d ∉ map ob (take n (tr s)).
Proof.
  intros Hwf HU Hs Hn Hc Hw. destruct (C51_listed ch U s n lv Hwf HU Hs Hn) as (_ & _ & _ & H).
  apply H in Hc as (_ & p & Hc). destruct Hw as [->|Hw]; [by exists p|]. destruct Hc as [Hc _].
  eapply (lives_encloses ch (tr s) (take n (tr s)) (drop n (tr s))); [| | |exact Hw|done|exact Hc].
  - by apply (seen_orderly ch U Hwf HU).
  - by apply (seen_exits ch U Hwf HU).
  - by rewrite take_drop.
Qed.
Print Assumptions C51_found.

Example C51_found_example :
  (5, [4]) ∈ sights (en Demo.demo) ∧ within Demo.chart5 0 4 ∧ lives (take 5 (tr Demo.demo)) (0, 0).
Proof.
  split_and!; [by_compute| |by_compute]. right.
  apply (encloses_step _ _ _ 3); [done|]. apply (encloses_step _ _ _ 1); [done|]. exact (encloses_direct Demo.chart5 1).
Qed.

(** The contexts of a state, whatever happens to it (it is constructed, reacts, is left, is destroyed): all
    its outer states are alive and are not being left. *)
Theorem C51_context {W} (ch : chart) (U : user W) s t1 b k t2 c p d :
  wf_chart ch = true → user_ok ch U → seen ch U s → tr s = t1 ++ Obs b k :: t2 → about k = Some (c, p) →
  encloses ch (Some d) c →
  ∃ p', lives t1 (d, p') ∧ OExit p' d ∉ map ob t1.
Proof.
  intros Hwf HU Hs Et Hk Hd. pose proof (seen_orderly ch U Hwf HU s Hs) as Ho.
  pose proof (seen_exits ch U Hwf HU s Hs) as He. pose proof (Ho _ _ _ _ Et) as Hok.
  assert (lives t1 (c, p) ∨ (k = OCtor p c ∨ k = OCtorThrow p c)) as [Hl|Hc].
  { destruct k; simpl in Hk; try done; injection Hk as [= <- <-]; try (by right; left); try (by right; right); left;
      (by apply Hok) || (by apply (Hok (c0, p0))) || tauto. }
  - by eapply (lives_encloses ch (tr s) t1 _ Ho He Et).
  - assert (∀ q, parent ch c = Some q → ∃ p', lives t1 (q, p') ∧ OExit p' q ∉ map ob t1) as Hq.
    { intros q Hp. assert (∃ p', lives t1 (q, p')) as [p' Hl].
      { destruct Hc as [-> | ->]; by apply Hok. }
      exists p'. split; [done|]. intros Hex. destruct Hl as [_ Hl]. apply Hl. rewrite Et in He.
      apply (leaving_ends _ _ _ _ (q, p') He Hex); by destruct Hc as [-> | ->]. }
    inversion Hd as [c' Hp|x c' q Hp Hd']; subst.
    + apply Hq. by rewrite Hp.
    + destruct (Hq q Hp) as (p' & Hl & _). by eapply (lives_encloses ch (tr s) t1 _ Ho He Et).
Qed.
Print Assumptions C51_context.
Example C51_context_example :
  tr Demo.demo !! 27 = Some (Obs (Some (ev 2)) (OExit 5 5)) ∧ encloses Demo.chart5 (Some 0) 5 ∧
  lives (take 27 (tr Demo.demo)) (0, 0).
Proof.
  split_and!; [by_compute| |by_compute].
  apply (encloses_step _ _ _ 3); [done|]. apply (encloses_step _ _ _ 1); [done|]. exact (encloses_direct Demo.chart5 1).
Qed.
