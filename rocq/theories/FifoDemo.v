(** * Executing [fifo_worker] step by step

    A schedule is a list of what the threads do; [play] executes it.  Used for the examples beside the theorems. *)
From Verif Require Export Fifo.

Inductive act (P : Type) :=
| ACall (t : tid) (i : item P)      (* thread t calls queue_work_item(i) or terminate() *)
| AEmpty (t : tid)
| ARun (n : nat)                    (* operator()(n) *)
| ARet                              (* the running item returns *)
| AThrow                            (* the running item throws *)
| AAsk                              (* terminated() *)
| AFail (t : tid)                   (* there is no memory for the item that thread t is queueing *)
| ASpurious
| ALib (t : tid) (n : nat).         (* n steps of the library in thread t *)
Arguments ACall {P} _ _.
Arguments AEmpty {P} _.
Arguments ARun {P} _.
Arguments ARet {P}.
Arguments AThrow {P}.
Arguments AAsk {P}.
Arguments AFail {P} _.
Arguments ASpurious {P}.
Arguments ALib {P} _ _.

Section play.
Context {P : Type}.
Implicit Types (s : fifo P).

Definition lib (t : tid) s : option (fifo P) :=
  match fpc s t with
  | TQLock i => if fmtx s then None else Some (goto (with_mtx s (Some t)) t (TQPush i) [])
  | TQPush i => Some (goto (with_queue s (fqueue s ++ [i])) t TQNotify [FPush t i])
  | TQNotify => Some (goto (notify s) t TQUnlock [])
  | TQUnlock => Some (goto (with_mtx s None) t TUser [FCallRet t])
  | p =>
    if decide (t = worker) then
      match p, fstack s with
      | TTest, f :: fs => 
        if go_on s f then Some (goto s worker TDLock [])
        else Some (goto (with_stack s fs) worker TUser [FRunRet (fcount f)])
      | TGot None, f :: fs => Some (goto (with_stack s fs) worker TUser [FRunRet (fcount f)])
      | TGot (Some (IUser p)), f :: fs =>
        Some (goto (with_stack s (Frame (fmax f) (fcount f) (Some (IUser p)) :: fs)) worker TUser [FStart (IUser p)])
      | TGot (Some ITerm), f :: fs =>
        Some (goto (with_stack s (Frame (fmax f) (fcount f) (Some ITerm) :: fs)) worker TTerm [FStart ITerm])
      | TTerm, f :: fs =>
        Some (goto (with_stack (with_term s true) (Frame (fmax f) (S (fcount f)) None :: fs)) worker TTest [FItemRet])
      | TDLock, _ => if fmtx s then None else Some (goto (with_mtx s (Some worker)) worker TDCheck [])
      | TDCheck, _ =>
        if negb (fwait s) && bool_decide (fqueue s = []) then Some (goto s worker (TDUnlock None) [])
        else Some (goto s worker TDWhile [])
      | TDWhile, _ =>
        match fqueue s with
        | [] => Some (goto s worker TDSleep [])
        | _ => Some (goto s worker TDPop [])
        end
      | TDSleep, _ => Some (goto (with_mtx s None) worker TDWait [])
      | TDWoken, _ => if fmtx s then None else Some (goto (with_mtx s (Some worker)) worker TDWhile [])
      | TDPop, _ =>
        match fqueue s with
        | i :: q => Some (goto (with_queue s q) worker (TDUnlock (Some i)) [])
        | [] => None
        end
      | TDUnlock r, _ => Some (goto (with_mtx s None) worker (TGot r) [])
      | _, _ => None
      end
    else None
  end.

Fixpoint libs (t : tid) (n : nat) s : option (fifo P) :=
  match n with 0 => Some s | S n => lib t s ≫= libs t n end.

Definition user (t : tid) s (r : fifo P) : option (fifo P) :=
  match fpc s t with TUser => Some r | _ => None end.

Definition fire (a : act P) s : option (fifo P) :=
  match a with
  | ACall t i => user t s (goto s t (TQLock i) [FCall t i])
  | AEmpty t => user t s (goto s t TUser [FCallEmpty t])
  | ARun n => user worker s (goto (with_stack s (Frame n 0 None :: fstack s)) worker TTest [FRun n])
  | ARet =>
    match fstack s with
    | f :: fs => user worker s (goto (with_stack s (Frame (fmax f) (S (fcount f)) None :: fs)) worker TTest [FItemRet])
    | [] => None
    end
  | AThrow =>
    match fstack s with f :: fs => user worker s (goto (with_stack s fs) worker TUser [FThrow]) | [] => None end
  | AAsk => user worker s (goto s worker TUser [FAsk (fterm s)])
  | AFail t => match fpc s t with TQPush i => Some (goto (with_mtx s None) t TUser [FFail t i]) | _ => None end
  | ASpurious => match fpc s worker with TDWait => Some (goto s worker TDWoken []) | _ => None end
  | ALib t n => libs t n s
  end.

Fixpoint play (l : list (act P)) s : option (fifo P) :=
  match l with [] => Some s | a :: l => fire a s ≫= play l end.

Lemma lib_is_step t s s' : lib t s = Some s' → step t s s'.
Proof.
  intros H. unfold lib in H.
  destruct (fpc s t) eqn:E; repeat case_decide; subst;
    repeat match goal with
    | H : context [match ?x with _ => _ end] |- _ => destruct x eqn:?
    end; simplify_eq; try by econstructor.
  all: eapply SDLeave; congruence.
Qed.
Lemma lib_sound wait t s s' : lib t s = Some s' → freach wait s → freach wait s'.
Proof. intros H Hr. eapply (freach_step _ t); [done|]. by apply lib_is_step. Qed.
Lemma libs_sound wait t n s s' : libs t n s = Some s' → freach wait s → freach wait s'.
Proof.
  revert s. induction n as [|n IH]; simpl; intros s H Hr; simplify_eq; [done|].
  apply bind_Some in H as (s1 & H1 & H). eauto using lib_sound.
Qed.
Definition single (a : act P) : bool := match a with ALib _ _ => false | _ => true end.
Lemma fire_is_step a s s' : single a = true → fire a s = Some s' → ∃ t, step t s s'.
Proof.
  destruct a; simpl; unfold user; intros Ha H; try done; eexists;
    repeat match goal with
    | H : context [match ?x with _ => _ end] |- _ => destruct x eqn:?
    end; simplify_eq; by econstructor.
Qed.
Lemma fire_sound wait a s s' : fire a s = Some s' → freach wait s → freach wait s'.
Proof.
  intros H Hr. destruct (single a) eqn:Ha.
  - destruct (fire_is_step _ _ _ Ha H) as [t ?]. by eapply freach_step.
  - destruct a; try done. by eapply libs_sound.
Qed.
Lemma play_sound wait l s s' : play l s = Some s' → freach wait s → freach wait s'.
Proof.
  revert s. induction l as [|a l IH]; simpl; intros s H Hr; simplify_eq; [done|].
  apply bind_Some in H as (s1 & H1 & H). eauto using fire_sound.
Qed.

(** A schedule that can be executed and ends as [C] says. *)
Lemma played_fifo wait l (C : fifo P → bool) :
  match play l (fifo_init wait) with Some s => C s | None => false end = true →
  ∃ s, freach wait s ∧ C s = true.
Proof.
  destruct (play l (fifo_init wait)) as [s|] eqn:E; [|done]. intros HC. exists s. split; [|done].
  eapply play_sound; [done|constructor].
Qed.
End play.

(** The same, giving the trace. *)
Lemma played_events {P} wait (l : list (act P)) tr :
  ftr <$> play l (fifo_init wait) = Some tr → ∃ s, freach wait s ∧ ftr s = tr.
Proof.
  intros (s & E & ->)%fmap_Some. exists s. split; [|done]. eapply play_sound; [done|constructor].
Qed.

(** thread [t] queues [i]; the worker dequeues and calls an item *)
Definition queues {P} (t : tid) (i : item P) : list (act P) := [ACall t i; ALib t 4].

(** Two threads queue items while the worker runs: it blocks, is woken, runs 7, which queues 9 and throws;
    it is called again with a limit, runs 8, then again and runs 9 and the termination item. *)
Definition busy_day : list (act nat) :=
  [ARun 0; ALib 0 5] ++ queues 1 (IUser 7) ++ queues 2 (IUser 8) ++ [ALib 0 5] ++ queues 0 (IUser 9) ++ [AThrow]
  ++ queues 1 ITerm ++ [ARun 1; ALib 0 7; ARet; ALib 0 1; AAsk; ARun 0; ALib 0 7; ARet; ALib 0 9; AAsk].
Definition busy_trace : list (fev nat) :=
  [FRun 0; FCall 1 (IUser 7); FPush 1 (IUser 7); FCallRet 1; FCall 2 (IUser 8); FPush 2 (IUser 8); FCallRet 2;
   FStart (IUser 7); FCall 0 (IUser 9); FPush 0 (IUser 9); FCallRet 0; FThrow;
   FCall 1 ITerm; FPush 1 ITerm; FCallRet 1;
   FRun 1; FStart (IUser 8); FItemRet; FRunRet 1; FAsk false;
   FRun 0; FStart (IUser 9); FItemRet; FStart ITerm; FItemRet; FRunRet 2; FAsk true].
Example busy_day_ok : ∃ s, freach true s ∧ ftr s = busy_trace.
Proof. apply (played_events true busy_day). by vm_compute. Qed.

(** A non-blocking worker runs dry; an item is queued too late for it. *)
Definition dry_day : list (act nat) :=
  [AEmpty 1] ++ queues 1 (IUser 7) ++ [ARun 0; ALib 0 7; ARet; ALib 0 4] ++ [ACall 1 (IUser 8); ALib 1 2; ALib 0 1].
Definition dry_trace : list (fev nat) :=
  [FCallEmpty 1; FCall 1 (IUser 7); FPush 1 (IUser 7); FCallRet 1; FRun 0; FStart (IUser 7); FItemRet;
   FCall 1 (IUser 8); FPush 1 (IUser 8); FRunRet 1].
Example dry_day_ok : ∃ s, freach false s ∧ ftr s = dry_trace.
Proof. apply (played_events false dry_day). by vm_compute. Qed.

(** There is no memory for the second item; the thread goes on and queues a third one. *)
Definition full_day : list (act nat) :=
  queues 1 (IUser 7) ++ [ACall 1 (IUser 8); ALib 1 1; AFail 1] ++ queues 1 (IUser 9)
  ++ [ARun 0; ALib 0 7; ACall 0 (IUser 5); ALib 0 1; AFail 0; ARet; ALib 0 7].
Definition full_trace : list (fev nat) :=
  [FCall 1 (IUser 7); FPush 1 (IUser 7); FCallRet 1; FCall 1 (IUser 8); FFail 1 (IUser 8);
   FCall 1 (IUser 9); FPush 1 (IUser 9); FCallRet 1;
   FRun 0; FStart (IUser 7); FCall 0 (IUser 5); FFail 0 (IUser 5); FItemRet; FStart (IUser 9)].
Example full_day_ok : ∃ s, freach true s ∧ ftr s = full_trace.
Proof. apply (played_events true full_day). by vm_compute. Qed.

(** A work item that calls operator() itself. *)
Definition nested_day : list (act nat) :=
  queues 1 (IUser 7) ++ queues 1 (IUser 8) ++ queues 1 (IUser 9)
  ++ [ARun 0; ALib 0 7; ARun 1; ALib 0 7; ARet; ALib 0 1; ARet; ALib 0 7; AThrow].
Definition nested_trace : list (fev nat) :=
  [FCall 1 (IUser 7); FPush 1 (IUser 7); FCallRet 1; FCall 1 (IUser 8); FPush 1 (IUser 8); FCallRet 1;
   FCall 1 (IUser 9); FPush 1 (IUser 9); FCallRet 1;
   FRun 0; FStart (IUser 7); FRun 1; FStart (IUser 8); FItemRet; FRunRet 1; FItemRet; FStart (IUser 9); FThrow].
Example nested_day_ok : ∃ s, freach false s ∧ ftr s = nested_trace.
Proof. apply (played_events false nested_day). by vm_compute. Qed.
