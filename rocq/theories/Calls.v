(** Every call of the machine of Machine.v follows the grammar of Story.v. *)
From stdpp Require Import relations.
From Verif Require Export Refine WpEvent.

Section calls.
Context {W : Type} (ch : chart) (U : user W).
Context (Hwf : wf_chart ch = true) (HU : user_ok ch U).
Notation S := (mst W heapst).
Notation T := (mst W acore).
Notation RR := (RR (W:=W) ch).
Notation alive := (alive ch).

Record backed (s : S) (a : T) : Prop := {
  bk_R : RR [] s a;
  bk_stable : stable ch a;
  bk_steps : ∃ w, rtc (step ch) (a_fresh w) a }.

Lemma backed_fresh w : backed (fresh w) (a_fresh w).
Proof. split; [by apply RR_fresh|by apply stable_fresh|]. exists w. apply rtc_refl. Qed.

Lemma backed_tr s a : backed s a → tr s = trace (en a).
Proof. intros [[_ H] _ _]. unfold tr. by rewrite H. Qed.

Definition ends (r : res unit) (o : ending_of) : Prop :=
  match r with
  | Ret _ => o = Returned
  | Exn y => o = Raised y
  | Div => o = Running
  | Fault _ => False
  end.

Lemma allowed s a o : backed s a → op_allowed ch U o s → a_allowed ch U o a.
Proof.
  intros [HR Hs _] Ha. destruct o as [n| |n e|e|c k|c k]; try done. intros a' E.
  pose proof (sim_terminate ch U Hwf s a HR) as Hsim. rewrite E in Hsim. destruct Hsim as ([] & s' & E' & HR').
  rewrite <-(terminated_eq ch _ _ _ HR'). by apply Ha.
Qed.

Lemma call_backed s a o r s' :
  backed s a → op_ok ch o = true → op_allowed ch U o s → call ch U o s = (r, s') →
  ∃ a' T o', ends r o' ∧ backed s' a' ∧ tr s' = tr s ++ T ∧ story ch U o (tr s) T o'.
Proof.
  intros Hb Hok Hal E. pose proof (allowed _ _ _ Hb Hal) as Hal'. pose proof (backed_tr _ _ Hb) as Ht.
  destruct Hb as [HR Hs (w & Hw)].
  pose proof (wpd_call ch U Hwf HU o a Hs Hok Hal') as Hwp. pose proof (sim_call ch U Hwf o s a HR) as Hsim.
  pose proof (to_call ch U Hwf o a) as Hto. unfold wpd, to, from in *.
  destruct (a_call ch U o a) as [[[]|y|f|] a'] eqn:Ea; try done.
  - destruct Hsim as ([] & s1 & E' & HR'). rewrite E in E'. injection E' as -> ->.
    destruct Hwp as (T & E1 & Hst & Hs'). exists a', T, Returned. split_and!; [done|..].
    + split; [done..|]. exists w. by etrans.
    + unfold tr in *. destruct HR' as [_ ->]. by rewrite Ht.
    + by rewrite Ht.
  - destruct Hsim as (s1 & E' & HR'). rewrite E in E'. injection E' as -> ->.
    destruct Hwp as (T & E1 & Hst & Hs'). exists a', T, (Raised y). split_and!; [done|..].
    + split; [done..|]. exists w. by etrans.
    + unfold tr in *. destruct HR' as [_ ->]. by rewrite Ht.
    + by rewrite Ht.
  - destruct Hsim as (s1 & E' & HR'). rewrite E in E'. injection E' as -> ->.
    destruct Hwp as (T & E1 & Hst & Hs'). exists a', T, Running. split_and!; [done|..].
    + split; [done..|]. exists w. by etrans.
    + unfold tr in *. destruct HR' as [_ ->]. by rewrite Ht.
    + by rewrite Ht.
Qed.

Lemma destroy_backed s a r s' :
  backed s a → destroy ch U s = (r, s') →
  r = Ret tt ∧ ∃ a' ks, backed s' a' ∧ empty_core (core a') ∧ tr s' = tr s ++ under None ks ∧ ending ch (tr s) false ks.
Proof.
  intros Hb E. pose proof (backed_tr _ _ Hb) as Ht. destruct Hb as [HR Hs (w & Hw)].
  pose proof (sim_destroy_machine ch U Hwf s a HR) as Hsim.
  pose proof (to_terminate_machine ch U Hwf false a) as Hto.
  pose proof (wp_terminate_machine ch U Hwf HU false a (cm_good _ _ (sb_calm _ _ Hs))) as Hwp.
  unfold wp, to, from, a_destroy_machine in *.
  destruct (a_terminate_machine ch U false a) as [[[]|y|f|] a'] eqn:Ea; try done.
  2:{ by destruct Hwp. }
  destruct Hsim as ([] & s1 & E' & HR'). rewrite E in E'. injection E' as -> ->. split; [done|].
  destruct (ended_ending ch Hwf _ _ _ _ (tracks_knows ch _ (sb_tracks _ _ Hs)) (cm_good _ _ (sb_calm _ _ Hs)) Hwp)
    as (ks & E1 & Hend).
  rewrite (sb_trig _ _ Hs) in E1. exists a', ks. split_and!.
  - split; [done| |exists w; by etrans]. split; [by eapply ended_calm| |].
    + rewrite (nd_trig _ _ _ _ Hwp). apply Hs.
    + eapply (tracks_steps ch Hwf); [apply (sb_tracks _ _ Hs)|done].
  - apply Hwp.
  - unfold tr in *. destruct HR' as [_ ->]. by rewrite Ht.
  - by rewrite Ht.
Qed.

Lemma reach_backed s : reach ch U s → ∃ a, backed s a.
Proof.
  induction 1 as [w|s o s' _ [a Ha] H1 H2 H3|s o x s' _ [a Ha] H1 H2 H3].
  - exists (a_fresh w). apply backed_fresh.
  - destruct (call_backed _ _ _ _ _ Ha H1 H2 H3) as (a' & _ & _ & _ & Hb & _). by exists a'.
  - destruct (call_backed _ _ _ _ _ Ha H1 H2 H3) as (a' & _ & _ & _ & Hb & _). by exists a'.
Qed.
Lemma seen_backed s : seen ch U s → ∃ a, backed s a.
Proof.
  intros [s' Hs|s' o s1 Hs H1 H2 H3|s' s1 Hs H1]; apply reach_backed in Hs as Ha; [done|..]; destruct Ha as [a Ha].
  - destruct (call_backed _ _ _ _ _ Ha H1 H2 H3) as (a' & _ & _ & _ & Hb & _). by exists a'.
  - destruct (destroy_backed _ _ _ _ Ha H1) as (_ & a' & _ & Hb & _). by exists a'.
Qed.

(** ** What is known about a machine a client can see *)
Lemma active_alive s a x : backed s a → active s x ↔ alive (core a) x.
Proof.
  intros [[HR _] _ _]. split.
  - intros (o & H1 & H2). apply (R_dom _ _ _ _ HR) in H1. rewrite H2 in H1. by destruct x.
  - intros Hx. destruct (R_obj _ _ _ _ HR x Hx) as (lp & H1 & _). by eexists.
Qed.
Lemma active_lives s a x : backed s a → active s x ↔ lives (tr s) x.
Proof.
  intros Hb. rewrite (active_alive _ _ _ Hb), (backed_tr _ _ Hb). apply (tk_alive _ _ (sb_tracks _ _ (bk_stable _ _ Hb))).
Qed.
Lemma leaves_ord s a : backed s a → leaves s = abs_leaves (core a).
Proof. intros [[HR _] _ _]. unfold leaves. by eapply leaves_eq. Qed.
Lemma terminated_abs s a : backed s a → terminated s = a_terminated a.
Proof. intros [HR _ _]. by eapply terminated_eq. Qed.
End calls.
