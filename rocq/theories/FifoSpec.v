(** * What the statements about [fifo_worker] say, in terms of what is observed *)
From Verif Require Export Fifo.

Section spec.
Context {P : Type}.
Implicit Types (l : list (fev P)) (t : tid).

(** Everything that entered the queue, in that order, with the thread that queued it. *)
Fixpoint pushed_by l : list (tid * item P) :=
  match l with
  | [] => []
  | FPush t i :: l => (t, i) :: pushed_by l
  | _ :: l => pushed_by l
  end.
Definition pushed l : list (item P) := (pushed_by l).*2.

(** Everything that operator() called, in that order. *)
Fixpoint started l : list (item P) :=
  match l with
  | [] => []
  | FStart i :: l => i :: started l
  | _ :: l => started l
  end.

(** What thread [t] passed to queue_work_item() (or requested by terminate()), in that order; a call that throws takes its
    item back. *)
Definition asked_step t (a : list (item P)) (e : fev P) : list (item P) :=
  match e with
  | FCall u i => if decide (u = t) then a ++ [i] else a
  | FFail u _ => if decide (u = t) then removelast a else a
  | _ => a
  end.
Definition asked t l : list (item P) := foldl (asked_step t) [] l.

(** The steps of the calls that thread [t] made, and what the completed calls look like: either the item entered the queue
    before the call returned, or the call threw. *)
Definition call_by t (e : fev P) : Prop :=
  match e with FCall u _ | FPush u _ | FCallRet u | FFail u _ => u = t | _ => False end.
Global Instance call_by_dec t e : Decision (call_by t e).
Proof. destruct e; simpl; apply _. Defined.
Inductive calls t : list (fev P) → Prop :=
| calls_none : calls t []
| calls_ok l i : calls t l → calls t (l ++ [FCall t i; FPush t i; FCallRet t])
| calls_threw l i : calls t l → calls t (l ++ [FCall t i; FFail t i]).

(** How many of these calls returned normally. *)
Fixpoint answered t l : nat :=
  match l with
  | [] => 0
  | FCallRet u :: l => if decide (u = t) then S (answered t l) else answered t l
  | _ :: l => answered t l
  end.

(** What thread [t] put into the queue. *)
Definition pushed_of t l : list (item P) :=
  (filter (λ x : tid * item P, x.1 = t) (pushed_by l)).*2.

(** The calls of operator() in progress, innermost first: the number passed, how many items it executed
    to their end, and the item it is executing. *)
Definition frames_step (fs : list (frame P)) (e : fev P) : list (frame P) :=
  match e, fs with
  | FRun n, _ => Frame n 0 None :: fs
  | FStart i, Frame n k _ :: fs => Frame n k (Some i) :: fs
  | FItemRet, Frame n k _ :: fs => Frame n (S k) None :: fs
  | FThrow, _ :: fs => fs
  | FRunRet _, _ :: fs => fs
  | _, _ => fs
  end.
Definition frames l : list (frame P) := foldl frames_step [] l.

(** What only the worker does. *)
Definition by_worker (e : fev P) : bool :=
  match e with
  | FCall t _ | FPush t _ | FCallRet t | FCallEmpty t | FFail t _ => bool_decide (t = worker)
  | _ => true
  end.

(** operator() found the queue empty after [l]: at some moment everything that had entered the queue had
    been called, and since then the worker did nothing. *)
Definition ran_dry l : Prop :=
  ∃ l1 l2, l = l1 ++ l2 ∧ pushed l1 = started l1 ∧ Forall (λ e, by_worker e = false) l2.

(** ** Elementary facts *)
Lemma pushed_by_app l1 l2 : pushed_by (l1 ++ l2) = pushed_by l1 ++ pushed_by l2.
Proof. induction l1 as [|[] l1 IH]; simpl; by rewrite ?IH. Qed.
Lemma pushed_app l1 l2 : pushed (l1 ++ l2) = pushed l1 ++ pushed l2.
Proof. unfold pushed. by rewrite pushed_by_app, fmap_app. Qed.
Lemma started_app l1 l2 : started (l1 ++ l2) = started l1 ++ started l2.
Proof. induction l1 as [|[] l1 IH]; simpl; by rewrite ?IH. Qed.
Lemma asked_snoc t l e : asked t (l ++ [e]) = asked_step t (asked t l) e.
Proof. unfold asked. by rewrite foldl_app. Qed.
Lemma answered_app t l1 l2 : answered t (l1 ++ l2) = answered t l1 + answered t l2.
Proof. induction l1 as [|[] l1 IH]; simpl; repeat case_decide; simpl; by rewrite ?IH. Qed.
Lemma pushed_of_app t l1 l2 : pushed_of t (l1 ++ l2) = pushed_of t l1 ++ pushed_of t l2.
Proof. unfold pushed_of. by rewrite pushed_by_app, filter_app, fmap_app. Qed.
Lemma frames_app l e : frames (l ++ [e]) = frames_step (frames l) e.
Proof. unfold frames. by rewrite foldl_app. Qed.

Lemma ran_dry_end l : pushed l = started l → ran_dry l.
Proof. intros H. exists l, []. by rewrite app_nil_r. Qed.
Lemma ran_dry_other l e : ran_dry l → by_worker e = false → ran_dry (l ++ [e]).
Proof.
  intros (l1 & l2 & -> & Hp & Hl) He. exists l1, (l2 ++ [e]). rewrite app_assoc. split_and!; [done|done|].
  apply Forall_app; split; [done|]. by constructor.
Qed.
End spec.
