(** C25-C27: history. *)
From Verif Require Import Demo Recall Alloc.

(** In these theorems [region ch c] is the region a state belongs to: its context and the position there. *)

(** ** C25: shallow history *)
(** What is entered through shallow history is the direct inner state of the region that was left normally
    most recently, if nothing cleared the history since; otherwise the given default. *)
Theorem C25_recall {W} (ch : chart) (U : user W) s t1 b c h t2 :
  wf_chart ch = true → user_ok ch U → seen ch U s → tr s = t1 ++ Obs b (OHistS c h) :: t2 →
  shallow_memory ch t1 (region ch c) h ∨ h = c ∧ ∀ h', ¬ shallow_memory ch t1 (region ch c) h'.
Proof. intros Hwf HU Hs E. destruct (seen_truthful ch U Hwf HU _ Hs) as [Ht _]. exact (Ht _ _ _ _ E). Qed.
Print Assumptions C25_recall.
(** There is at most one such state. *)
Theorem C25_unique {W} (ch : chart) (U : user W) s r h h' :
  wf_chart ch = true → user_ok ch U → seen ch U s →
  shallow_memory ch (tr s) r h → shallow_memory ch (tr s) r h' → h = h'.
Proof.
  intros Hwf HU Hs H1 H2. apply (seen_shallow ch U Hwf HU _ _ _ Hs) in H1, H2. congruence.
Qed.
Print Assumptions C25_unique.
(** A transition that looks up shallow history enters the state found and its default inner states: [kb] is a
    complete record of that, interrupted only by an exception. *)
Theorem C25_enters {W} (ch : chart) (U : user W) s t1 b p c d t2 ks k k1 c0 h k2 :
  wf_chart ch = true → user_ok ch U → seen ch U s → tr s = t1 ++ Obs b (OTransit p c d) :: t2 →
  spans b t2 ks k → ks = k1 ++ OHistS c0 h :: k2 →
  region ch h = region ch c0 ∧ ∃ n cs kb, builds ch n [] (IState h) cs kb ∧
    (kb `prefix_of` lifes k2 ∨ lifes k2 `prefix_of` kb ∧ ∃ y, k = Some (OThrow y)).
Proof. intros Hwf HU Hs E H1 H2. exact (transit_recalls ch U Hwf HU s t1 b p c d t2 ks k k1 _ k2 Hs E H1 H2). Qed.
Print Assumptions C25_enters.
(** State 1 was the last direct inner state of region 0 of state 0 to be left; state 7 is the default. *)
Example C25_example : ∃ s, reach Demo.chart5 Demo.U s ∧
  map ob (drop 47 (tr s)) = [OExit 4 2; ODtor 4 2; OExit 8 4; ODtor 8 4; OExit 7 3; ODtor 7 3; OExit 6 1; ODtor 6 1; OExit 0 0; ODtor 0 0;
    OAction None 6 (ev 6); OCtor 9 0; OHistS 7 1; OCtor 10 1; OCtor 11 3; OCtor 12 4; OCtor 13 2; OResult 0 0 RDiscard; ODone].
Proof. apply (played_trace Demo.chart5 Demo.U [Demo.i; Demo.p 2; Demo.p 2; Demo.p 6] []). by_eval. Qed.

(** ** C26: deep history *)
Theorem C26_recall {W} (ch : chart) (U : user W) s t1 b c l t2 :
  wf_chart ch = true → user_ok ch U → seen ch U s → tr s = t1 ++ Obs b (OHistD c l) :: t2 →
  deep_memory ch t1 (region ch c) l ∨ l = c ∧ ∀ l', ¬ deep_memory ch t1 (region ch c) l'.
Proof. intros Hwf HU Hs E. destruct (seen_truthful ch U Hwf HU _ Hs) as [Ht _]. exact (Ht _ _ _ _ E). Qed.
Print Assumptions C26_recall.
Theorem C26_unique {W} (ch : chart) (U : user W) s r l l' :
  wf_chart ch = true → user_ok ch U → seen ch U s →
  deep_memory ch (tr s) r l → deep_memory ch (tr s) r l' → l = l'.
Proof.
  intros Hwf HU Hs H1 H2. apply (seen_deep ch U Hwf HU _ _ _ Hs) in H1, H2. congruence.
Qed.
Print Assumptions C26_unique.
(** The states from the region down to the one found are entered ([path_below]), then the one found. *)
Theorem C26_enters {W} (ch : chart) (U : user W) s t1 b p c d t2 ks k k1 c0 l k2 :
  wf_chart ch = true → user_ok ch U → seen ch U s → tr s = t1 ++ Obs b (OTransit p c d) :: t2 →
  spans b t2 ks k → ks = k1 ++ OHistD c0 l :: k2 →
  encloses ch (parent ch c0) l ∧ region ch (hd l (path_below ch (parent ch c0) l)) = region ch c0 ∧
  ∃ n cs kb, builds ch n (path_below ch (parent ch c0) l) (IState l) cs kb ∧
    (kb `prefix_of` lifes k2 ∨ lifes k2 `prefix_of` kb ∧ ∃ y, k = Some (OThrow y)).
Proof. intros Hwf HU Hs E H1 H2. exact (transit_recalls ch U Hwf HU s t1 b p c d t2 ks k k1 _ k2 Hs E H1 H2). Qed.
Print Assumptions C26_enters.
(** Unless an exception interrupts it, the whole chain of states from the region down to the state found is entered. *)
Theorem C26_chain {W} (ch : chart) (U : user W) s t1 b p c d t2 ks k k1 c0 l k2 :
  wf_chart ch = true → user_ok ch U → seen ch U s → tr s = t1 ++ Obs b (OTransit p c d) :: t2 →
  spans b t2 ks k → ks = k1 ++ OHistD c0 l :: k2 → (∀ y, k ≠ Some (OThrow y)) →
  ∀ q, within ch q l → encloses ch (parent ch c0) q → ∃ n, OCtor n q ∈ k2.
Proof. intros Hwf HU Hs E H1 H2 H3. exact (transit_chain ch U Hwf HU s t1 b p c d t2 ks k k1 _ _ k2 Hs E H1 H2 H3). Qed.
Print Assumptions C26_chain.
(** State 5 inside state 3 inside state 1 was left last; state 3 is the default. *)
Example C26_example : ∃ s, reach Demo.chart5 Demo.U s ∧
  map ob (drop 44 (tr s)) = [OTransit 6 7 (IDeep 3); OExit 6 7; ODtor 6 7; OAction (Some 0) 22 (ev 2); OCtor 7 1; OHistD 3 5; OCtor 8 3; OCtor 9 5;
    OResult 6 7 RDiscard; ODone].
Proof. apply (played_trace Demo.chart5 Demo.U [Demo.i; Demo.p 8; Demo.p 2; Demo.p 2] []). by_eval. Qed.

(** ** C27: clearing history *)
(** clear_shallow_history(), called by the client. *)
Theorem C27_clear_shallow {W} (ch : chart) (U : user W) s q i r s' :
  wf_chart ch = true → user_ok ch U → reach ch U s → op_ok ch (OpClearShallow q i) = true → call ch U (OpClearShallow q i) s = (r, s') →
  r = Ret tt ∧ (∀ h, shallow_map (en s') !! (Some q, i) ≠ Some (Some h)) ∧
  (∀ r' h, r' ≠ (Some q, i) → shallow_map (en s') !! r' = Some (Some h) ↔ shallow_map (en s) !! r' = Some (Some h)) ∧
  (∀ r' h, deep_map (en s') !! r' = Some (Some h) ↔ deep_map (en s) !! r' = Some (Some h)).
Proof. intros Hwf HU. exact (clear_shallow_call ch U Hwf HU s q i r s'). Qed.
Print Assumptions C27_clear_shallow.
Theorem C27_clear_deep {W} (ch : chart) (U : user W) s q i r s' :
  wf_chart ch = true → user_ok ch U → reach ch U s → op_ok ch (OpClearDeep q i) = true → call ch U (OpClearDeep q i) s = (r, s') →
  r = Ret tt ∧ (∀ h, deep_map (en s') !! (Some q, i) ≠ Some (Some h)) ∧
  (∀ r' h, r' ≠ (Some q, i) → deep_map (en s') !! r' = Some (Some h) ↔ deep_map (en s) !! r' = Some (Some h)) ∧
  (∀ r' h, shallow_map (en s') !! r' = Some (Some h) ↔ shallow_map (en s) !! r' = Some (Some h)).
Proof. intros Hwf HU. exact (clear_deep_call ch U Hwf HU s q i r s'). Qed.
Print Assumptions C27_clear_deep.
(** Whoever called it: unless a state of the region is left in between, the next entry through shallow history
    enters the default state. *)
Theorem C27_default_shallow {W} (ch : chart) (U : user W) s t1 b q i T b' c h t2 :
  wf_chart ch = true → user_ok ch U → seen ch U s → tr s = t1 ++ Obs b (OClearS q i) :: T ++ Obs b' (OHistS c h) :: t2 →
  region ch c = (Some q, i) → (∀ p z, ODtor p z ∈ map ob T → region ch z ≠ (Some q, i)) → h = c.
Proof. intros Hwf HU. exact (clear_default_shallow ch U Hwf HU s t1 b q i T b' c h t2). Qed.
Print Assumptions C27_default_shallow.
Theorem C27_default_deep {W} (ch : chart) (U : user W) s t1 b q i T b' c l t2 :
  wf_chart ch = true → user_ok ch U → seen ch U s → tr s = t1 ++ Obs b (OClearD q i) :: T ++ Obs b' (OHistD c l) :: t2 →
  region ch c = (Some q, i) → (∀ p z y, ODtor p z ∈ map ob T → within ch y z → region ch y ≠ (Some q, i)) → l = c.
Proof. intros Hwf HU. exact (clear_default_deep ch U Hwf HU s t1 b q i T b' c l t2). Qed.
Print Assumptions C27_default_deep.
(** A call changes only what is recorded for that region, and only that kind of history. *)
Theorem C27_other {W} (ch : chart) (U : user W) s t1 b q i t2 :
  wf_chart ch = true → user_ok ch U → seen ch U s → tr s = t1 ++ t2 →
  (∀ r h, r ≠ (Some q, i) → shallow_memory ch (t1 ++ [Obs b (OClearS q i)]) r h ↔ shallow_memory ch t1 r h) ∧
  (∀ r h, deep_memory ch (t1 ++ [Obs b (OClearS q i)]) r h ↔ deep_memory ch t1 r h) ∧
  (∀ r h, r ≠ (Some q, i) → deep_memory ch (t1 ++ [Obs b (OClearD q i)]) r h ↔ deep_memory ch t1 r h) ∧
  (∀ r h, shallow_memory ch (t1 ++ [Obs b (OClearD q i)]) r h ↔ shallow_memory ch t1 r h).
Proof.
  intros Hwf HU Hs E. split_and!; intros r h; try intros Hr;
    [apply (clear_keeps ch t1 b (OClearS q i))|apply (clear_keeps ch t1 b (OClearS q i))|
     apply (clear_keeps ch t1 b (OClearD q i))|apply (clear_keeps ch t1 b (OClearD q i))]; try done.
  - intros q' Er [= -> ->]. by apply Hr.
  - intros q' Er [= -> ->]. by apply Hr.
Qed.
Print Assumptions C27_other.
(** The history of region 0 of state 1 is cleared, then state 1 is entered through deep history: state 3 is the
    default, and it is the one entered although state 5 inside it was left last. *)
Example C27_example :
  tr Demo.demo = take 95 (tr Demo.demo) ++ Obs (Some (ev 7)) (OClearD 1 0) ::
    take 15 (drop 96 (tr Demo.demo)) ++ Obs (Some (ev 2)) (OHistD 3 3) :: drop 112 (tr Demo.demo) ∧
  region Demo.chart5 3 = (Some 1, 0) ∧ map ob (take 2 (drop 81 (tr Demo.demo))) = [OExit 12 5; ODtor 12 5] ∧
  omap (λ o, match ob o with ODtor _ c => Some c | _ => None end) (take 15 (drop 96 (tr Demo.demo))) = [7].
Proof.
  split_and!; by_compute.
Qed.
