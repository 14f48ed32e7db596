(** * C42: reaction results in debug builds

    [program l]: what a C++ program can do with result objects; [rrun l]: what happens then. *)
From Verif Require Import ResultVal.

(** A program trips no assertion if and only if every result object is passed on or read at most once, and exactly once
    by the time it is destroyed. *)
Theorem C42_assertions : ∀ l, program l →
  (is_Some (rrun l) ↔ ∀ i, use_count i l ≤ 1 ∧ (RDrop i ∈ l → use_count i l = 1)).
Proof.
  intros l Hp. split.
  { intros [s Hs] i. pose proof (program_inv _ _ Hp Hs) as R. split; [|apply (ri_dead _ _ R)].
    destruct (decide (i ∈ created l)) as [Hc|Hc]; [|destruct (program_uses l i Hp Hc); lia].
    destruct (decide (RDrop i ∈ l)) as [Hd|Hd]; [rewrite (ri_dead _ _ R i Hd); lia|].
    assert (alive i l) as [v Hv]%(ri_alive _ _ R) by done.
    destruct (ri_state _ _ R _ _ Hv) as [[_ ->]|[_ ->]]; lia. }
  induction Hp as [|l i v Hl IH Hi Hv|l i j Hl IH Hi Hr Hj|l i Hl IH Hi Hu|l i Hl IH Hi]; intros Hu';
    [by eexists|..].
  all: assert (is_Some (rrun l)) as [s Hs];
    [apply IH; intros k; destruct (Hu' k) as [H1 H2]; rewrite use_count_snoc in H1, H2; split; [lia|];
     intros Hk; specialize (H2 ltac:(apply elem_of_app; by left)); case_decide as Hd; [|lia];
     simpl in Hd; try done; injection Hd as ->; by destruct Hi|].
  all: rewrite rrun_snoc, Hs; simpl; pose proof (program_inv _ _ Hl Hs) as R.
  - by eexists.
  - destruct (proj2 (ri_alive _ _ R i) Hi) as [v Hv]. rewrite Hv. simpl.
    destruct (Hu' i) as [H1 _]. rewrite use_count_snoc in H1. simpl in H1. rewrite decide_True in H1 by done.
    rewrite decide_True; [by eexists|]. destruct (ri_state _ _ R _ _ Hv) as [[_ ?]|[? _]]; [lia|done].
  - destruct (proj2 (ri_alive _ _ R i) Hi) as [v Hv]. rewrite Hv. by eexists.
  - destruct (proj2 (ri_alive _ _ R i) Hi) as [v Hv]. rewrite Hv. simpl.
    destruct (Hu' i) as [_ H1]. rewrite use_count_snoc in H1. simpl in H1.
    rewrite decide_True; [by eexists|]. destruct (ri_state _ _ R _ _ Hv) as [[? _]|[_ ?]]; [done|].
    assert (use_count i l + 0 = 1); [|lia]. apply H1. apply elem_of_app. right. by left.
Qed.
Print Assumptions C42_assertions.

(** If none is tripped and all objects are gone, then the values read are those made, each once. *)
Theorem C42_read_once : ∀ l s, program l → rrun l = Some s → (∀ i, ¬ alive i l) → rread s ≡ₚ made l.
Proof.
  intros l s Hp Hs Hn. pose proof (program_inv _ _ Hp Hs) as R. rewrite <- (ri_sum _ _ R).
  assert (robj s = ∅) as ->.
  { apply map_empty. intros i. apply eq_None_not_Some. rewrite (ri_alive _ _ R). apply Hn. }
  unfold pend. by rewrite map_to_list_empty, app_nil_r.
Qed.
Print Assumptions C42_read_once.

(** What is read is the value with which the result was made. *)
Theorem C42_value : ∀ l i s, program (l ++ [RRead i]) → rrun (l ++ [RRead i]) = Some s →
  ∃ r v, rread s = r ++ [v] ∧ comes l i v.
Proof.
  intros l i s Hp Hs. assert (program l ∧ use_count i l = 0) as [Hl Hu].
  { inversion Hp as [|? ? ? ? ? ? E|? ? ? ? ? ? ? E|? ? ? ? ? E|? ? ? ? E]; try by destruct l.
    all: apply app_inj_tail in E as [-> E]; try done. by injection E as ->. }
  rewrite rrun_snoc in Hs. apply bind_Some in Hs as (s0 & Hs0 & Hs). simpl in Hs.
  apply bind_Some in Hs as (v & Hv & Hs). injection Hs as <-. pose proof (program_inv _ _ Hl Hs0) as R.
  eexists _, v. split; [done|]. apply (ri_comes _ _ R); [done|].
  destruct (ri_state _ _ R _ _ Hv) as [[_ ?]|[? _]]; [lia|done].
Qed.
Print Assumptions C42_value.

(** At any time what was read was made. *)
Theorem C42_read_made : ∀ l s, program l → rrun l = Some s → rread s ⊆+ made l.
Proof.
  intros l s Hp Hs. rewrite <- (ri_sum _ _ (program_inv _ _ Hp Hs)). apply submseteq_inserts_r. done.
Qed.
Print Assumptions C42_read_made.

(** A react() function obtains a result, passes it out through a helper; the caller reads it.  The parameter of
    get_result() is object 3. *)
Example C42_example : program [RMake 0 do_forward_event; RCopy 0 1; RDrop 0; RCopy 1 2; RDrop 1; RCopy 2 3; RRead 3; RDrop 3; RDrop 2]
  ∧ (rread <$> rrun [RMake 0 do_forward_event; RCopy 0 1; RDrop 0; RCopy 1 2; RDrop 1; RCopy 2 3; RRead 3; RDrop 3; RDrop 2])
    = Some [do_forward_event].
Proof.
  split; [|by vm_compute].
  change (program (((((((((([] ++ [RMake 0 do_forward_event]) ++ [RCopy 0 1]) ++ [RDrop 0]) ++ [RCopy 1 2]) ++ [RDrop 1])
    ++ [RCopy 2 3]) ++ [RRead 3]) ++ [RDrop 3])) ++ [RDrop 2])).
  repeat first [apply program_nil|apply program_drop|apply program_read|apply program_copy|apply program_make];
    unfold alive, created; simpl; try set_solver; done.
Qed.
(** Two results obtained, one dropped. *)
Example C42_dropped : rrun [RMake 0 do_forward_event; RMake 1 do_discard_event; RCopy 1 2; RDrop 1; RDrop 0] = None.
Proof. done. Qed.
