(** Only the event loop can exhaust its iterations. *)
From Verif Require Export Abs.

Definition nodiv {S A} (m : M S A) : Prop := ∀ s, (m s).1 ≠ Div.

Section rules.
Context {S : Type}.
Lemma nodiv_ret {A} (v : A) : nodiv (S:=S) (ret v).
Proof. done. Qed.
Lemma nodiv_throw {A} x : nodiv (S:=S) (A:=A) (throw x).
Proof. done. Qed.
Lemma nodiv_faulty {A} f : nodiv (S:=S) (A:=A) (faulty f).
Proof. done. Qed.
Lemma nodiv_gets {A} (f : S → A) : nodiv (gets f).
Proof. done. Qed.
Lemma nodiv_modify (f : S → S) : nodiv (modify f).
Proof. done. Qed.
Lemma nodiv_bind {A B} (m : M S A) (k : A → M S B) : nodiv m → (∀ v, nodiv (k v)) → nodiv (bind m k).
Proof.
  intros Hm Hk s. unfold bind. specialize (Hm s).
  destruct (m s) as [[]]; simpl in *; try done. apply Hk.
Qed.
Lemma nodiv_check b f : nodiv (S:=S) (check b f).
Proof. by destruct b. Qed.
Lemma nodiv_when b (m : M S unit) : nodiv m → nodiv (when b m).
Proof. by destruct b. Qed.
Lemma nodiv_iter {A} (f : A → M S unit) l : (∀ x, nodiv (f x)) → nodiv (iter f l).
Proof. intros Hf. induction l; simpl; [done|]. by apply nodiv_bind. Qed.
Lemma nodiv_finally {A} (m : M S A) c : nodiv m → nodiv c → nodiv (finally m c).
Proof.
  intros Hm Hc s. unfold finally. specialize (Hm s).
  destruct (m s) as [[] s']; simpl in *; try done; specialize (Hc s'); destruct (c s') as [[]]; done.
Qed.
Lemma nodiv_on_exn {A} (m : M S A) c : nodiv m → nodiv c → nodiv (on_exn m c).
Proof.
  intros Hm Hc s. unfold on_exn. specialize (Hm s).
  destruct (m s) as [[] s']; simpl in *; try done; specialize (Hc s'); destruct (c s') as [[]]; done.
Qed.
Lemma nodiv_catching {A} (m : M S A) h : nodiv m → (∀ x, nodiv (h x)) → nodiv (catching m h).
Proof.
  intros Hm Hh s. unfold catching. specialize (Hm s).
  destruct (m s) as [[] s']; simpl in *; try done. apply Hh.
Qed.
End rules.

Create HintDb nodiv.
Global Hint Resolve nodiv_ret nodiv_throw nodiv_faulty nodiv_gets nodiv_modify nodiv_check : nodiv.

Ltac nodiv :=
  repeat first
    [ solve [auto with nodiv]
    | apply nodiv_bind; [|intros ?]
    | apply nodiv_iter; intros ?
    | apply nodiv_finally | apply nodiv_on_exn | apply nodiv_catching; [|intros ?]
    | apply nodiv_when
    | match goal with |- nodiv (match ?x with _ => _ end) => destruct x end
    | match goal with |- nodiv (if ?x then _ else _) => destruct x end ].

Section fns.
Context {W X : Type} (ch : chart) (U : user W).
Lemma nodiv_do_cmd x : nodiv (S := mst W X) (do_cmd ch x).
Proof. destruct x; simpl; unfold on_env; nodiv. Qed.
Lemma nodiv_on_env f : nodiv (S := mst W X) (on_env f).
Proof. done. Qed.
Lemma nodiv_on_core (f : X → X) : nodiv (S := mst W X) (on_core f).
Proof. done. Qed.
Lemma nodiv_emit k : nodiv (S := mst W X) (emit k).
Proof. done. Qed.
Hint Resolve nodiv_do_cmd nodiv_on_env nodiv_on_core nodiv_emit : nodiv.
Lemma nodiv_ucall {A} (lv : X → list cls) (f : view → W → W * list cmd * A) : nodiv (ucall ch lv f).
Proof. unfold ucall. nodiv. Qed.
Hint Resolve nodiv_ucall : nodiv.
Lemma nodiv_ucall_x (lv : X → list cls) f : nodiv (ucall_x (W:=W) ch lv f).
Proof. unfold ucall_x. nodiv. Qed.
End fns.
Global Hint Resolve nodiv_do_cmd nodiv_on_env nodiv_on_core nodiv_emit nodiv_ucall nodiv_ucall_x : nodiv.

Section abs.
Context {W : Type} (ch : chart) (U : user W).
Lemma nodiv_assert P `{Decision P} : nodiv (assert (W:=W) P).
Proof. apply nodiv_check. Qed.
Hint Resolve nodiv_assert : nodiv.
Lemma nodiv_user_dtor c : nodiv (a_user_dtor ch U c).
Proof. unfold a_user_dtor. nodiv. Qed.
Hint Resolve nodiv_user_dtor : nodiv.
Lemma nodiv_destroy x : nodiv (a_destroy ch U x).
Proof. unfold a_destroy, a_release_events. nodiv. Qed.
Hint Resolve nodiv_destroy : nodiv.
Lemma nodiv_drop n H x : nodiv (a_drop ch U n H x).
Proof. revert x. induction n; intros x; simpl; nodiv. Qed.
Hint Resolve nodiv_drop : nodiv.
Lemma nodiv_drop_ H x : nodiv (drop_ ch U H x).
Proof. apply nodiv_drop. Qed.
Hint Resolve nodiv_drop_ : nodiv.
Lemma nodiv_drop_opt H x : nodiv (drop_opt ch U H x).
Proof. unfold drop_opt. nodiv. Qed.
Hint Resolve nodiv_drop_opt : nodiv.
Lemma nodiv_set_unst H x : nodiv (a_set_unst (W:=W) ch H x).
Proof. unfold a_set_unst. nodiv. Qed.
Hint Resolve nodiv_set_unst : nodiv.
Lemma nodiv_user_ctor p c : nodiv (a_user_ctor ch U p c).
Proof. unfold a_user_ctor. nodiv. Qed.
Hint Resolve nodiv_user_ctor : nodiv.
Lemma nodiv_simple_ctor p c : nodiv (a_simple_ctor ch U p c).
Proof. unfold a_simple_ctor. nodiv. Qed.
Hint Resolve nodiv_simple_ctor : nodiv.
Lemma nodiv_shallow H c x : nodiv (a_shallow ch U H c x).
Proof. unfold a_shallow, a_new, a_add. nodiv. Qed.
Hint Resolve nodiv_shallow : nodiv.
Lemma nodiv_construct n H l d x : nodiv (a_construct ch U n H l d x).
Proof. revert H l d x. induction n; intros H l d x; simpl; nodiv. Qed.
Hint Resolve nodiv_construct : nodiv.
Lemma nodiv_user_exit x : nodiv (a_user_exit ch U x).
Proof. unfold a_user_exit. nodiv. Qed.
Hint Resolve nodiv_user_exit : nodiv.
Lemma nodiv_exit n H x fe : nodiv (a_exit ch U n H x fe).
Proof. revert x. induction n; intros x; simpl; unfold a_exit1; nodiv. Qed.
Hint Resolve nodiv_exit : nodiv.
Lemma nodiv_exit_ H x fe : nodiv (exit_ ch U H x fe).
Proof. apply nodiv_exit. Qed.
Hint Resolve nodiv_exit_ : nodiv.
Lemma nodiv_unlist x : nodiv (a_unlist (W:=W) x).
Proof. unfold a_unlist. nodiv. Qed.
Hint Resolve nodiv_unlist : nodiv.
Lemma nodiv_remove n H x fe : nodiv (a_remove ch U n H x fe).
Proof. revert x. induction n; intros x; simpl; nodiv. Qed.
Hint Resolve nodiv_remove : nodiv.
Lemma nodiv_terminate_state H x fe : nodiv (a_terminate_state ch U H x fe).
Proof. unfold a_terminate_state. nodiv. Qed.
Hint Resolve nodiv_terminate_state : nodiv.
Lemma nodiv_terminate_machine fe : nodiv (a_terminate_machine ch U fe).
Proof. unfold a_terminate_machine. nodiv. Qed.
Hint Resolve nodiv_terminate_machine : nodiv.
Lemma nodiv_outward n x : nodiv (a_outward (W:=W) ch n x).
Proof. revert x. induction n; intros x; simpl; nodiv. Qed.
Hint Resolve nodiv_outward : nodiv.
Lemma nodiv_depart H ctx t x i act e : nodiv (a_depart ch U H ctx t x i act e).
Proof. unfold a_depart, a_user_action. nodiv. Qed.
Hint Resolve nodiv_depart : nodiv.
Lemma nodiv_transit x d act e : nodiv (a_transit ch U x d act e).
Proof. unfold a_transit, a_constructs. nodiv. Qed.
Hint Resolve nodiv_transit : nodiv.
Lemma nodiv_decide x e r : nodiv (a_decide ch U x e r).
Proof. unfold a_decide, a_terminate_as_reaction. nodiv. Qed.
Hint Resolve nodiv_decide : nodiv.
Lemma nodiv_local_react x i l e : nodiv (a_local_react ch U x i l e).
Proof. revert i. induction l; intros i; simpl; unfold a_run_reaction; nodiv. Qed.
Hint Resolve nodiv_local_react : nodiv.
Lemma nodiv_react n x e : nodiv (a_react_impl ch U n x e).
Proof. revert x. induction n; intros x; simpl; nodiv. Qed.
Hint Resolve nodiv_react : nodiv.
Lemma nodiv_handle xe y cur : nodiv (a_handle_exception ch U xe y cur).
Proof. unfold a_handle_exception, a_with_trig, a_react. nodiv. Qed.
Hint Resolve nodiv_handle : nodiv.
Lemma nodiv_translated m cur : nodiv m → nodiv (a_translated ch U m cur).
Proof. unfold a_translated. intros Hm. nodiv. Qed.
Lemma nodiv_dispatch n i e : nodiv (a_dispatch ch U n i e).
Proof.
  assert (∀ x, nodiv (a_translated ch U (a_react ch U x e) (Some x))).
  { intros x. apply nodiv_translated. apply nodiv_react. }
  revert i. induction n; intros i; simpl; nodiv.
Qed.
Lemma nodiv_guarded {A} (m : M _ A) : nodiv m → nodiv (a_guarded ch U m).
Proof. intros Hm. unfold a_guarded. nodiv. Qed.
End abs.

Global Hint Resolve nodiv_assert nodiv_user_dtor nodiv_destroy nodiv_drop nodiv_drop_ nodiv_drop_opt
  nodiv_set_unst nodiv_user_ctor nodiv_simple_ctor nodiv_shallow nodiv_construct nodiv_user_exit
  nodiv_exit nodiv_exit_ nodiv_unlist nodiv_remove nodiv_terminate_state nodiv_terminate_machine
  nodiv_outward nodiv_depart nodiv_transit nodiv_decide nodiv_local_react nodiv_react nodiv_handle nodiv_translated
  nodiv_dispatch nodiv_guarded : nodiv.
