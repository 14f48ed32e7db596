(** The number of event-loop iterations granted to a call does not influence a call that ends. *)
From Verif Require Export Api.

(** The call [o] with at least as many iterations granted. *)
Inductive more_iterations : op → op → Prop :=
| more_initiate n n' : n ≤ n' → more_iterations (OpInitiate n) (OpInitiate n')
| more_process n n' e : n ≤ n' → more_iterations (OpProcess n e) (OpProcess n' e)
| more_same o : more_iterations o o.

Section mono.
Context {W : Type} (ch : chart) (U : user W).

Lemma bind_mono {S A B} (m : M S A) (k k' : A → M S B) s :
  (∀ a s', m s = (Ret a, s') → (k a s').1 ≠ Div → k' a s' = k a s') →
  (bind m k s).1 ≠ Div → bind m k' s = bind m k s.
Proof.
  intros H. unfold bind. destruct (m s) as [[a|x|f|] s'] eqn:E; try done. intros Hd. by apply H.
Qed.

Lemma process_queued_mono n n' s :
  n ≤ n' → (process_queued ch U n s).1 ≠ Div → process_queued ch U n' s = process_queued ch U n s.
Proof.
  revert n' s. induction n as [|n IH]; intros n' s Hn.
  - destruct n' as [|n']; [done|]. simpl. apply bind_mono. intros [|e q] s' _; [done|]. simpl. done.
  - destruct n' as [|n']; [lia|]. simpl. apply bind_mono. intros [|e q] s1 _; [done|].
    apply bind_mono. intros [] s2 _. apply bind_mono. intros r s3 _.
    apply bind_mono. intros [] s4 _. apply IH. lia.
Qed.

Lemma call_mono o o' s :
  more_iterations o o' → (call ch U o s).1 ≠ Div → call ch U o' s = call ch U o s.
Proof.
  intros [n n' Hn|n n' e Hn|]; [| |done]; simpl.
  - unfold initiate. apply bind_mono. intros [] s1 _. apply bind_mono. intros [] s2 _.
    by apply process_queued_mono.
  - unfold process_event. apply bind_mono. intros [] s0 _. apply bind_mono. intros r s1 _. apply bind_mono. intros [] s2 _.
    by apply process_queued_mono.
Qed.

Lemma run_mono l l' s :
  Forall2 more_iterations l l' → Div ∉ (run ch U l s).1 → run ch U l' s = run ch U l s.
Proof.
  intros Hl. revert s. induction Hl as [|o o' l l' Ho Hl IH]; intros s Hd; [done|]. simpl in *.
  assert ((call ch U o s).1 ≠ Div) as Hc.
  { destruct (call ch U o s) as [[u|x|f|] s']; try done. intros _. apply Hd. left. }
  rewrite (call_mono _ _ _ Ho Hc).
  destruct (call ch U o s) as [[u|x|f|] s']; try done;
    (rewrite IH; [done|]); destruct (run ch U l s') as [rs s'']; simpl in *; intros Hin;
    apply Hd; by right.
Qed.
End mono.
