(** /repo/test/FifoSchedulerTest.cpp run in the model: a test of the model's fidelity (the expected values are those
    of the C++ test), not a proof of properties.  The arguments of the processor's constructor are not modelled. *)
From stdpp Require Import gmap.
From Verif Require Import FifoDemo PropsSched AsyncInv PropsAsync.
From Verif Require Import Api.

(** Initial=0; EvCheckCtorArgs=1 EvTerminate=2 EvFail=3; user data: the events that reached a custom reaction, the last
    one first. *)
Definition chart_ : chart :=
  Chart [CDef None 0 [] false false false [RCustom (EType 1); RTermination (EType 2); RCustom (EType 3)]] 0.
Example chart_wf : wf_chart chart_ = true.
Proof. vm_compute. reflexivity. Qed.
Definition user_ : Env.user (list nat) := {|
  u_ctor c v w := (w, [], None);
  u_exit c v w := (w, [], None);
  u_dtor c v w := (w, []);
  u_action a e v w := (w, [], None);
  u_instate a e v w := (w, [], None);
  u_react c i e v w := (e_type e :: w, [], DDiscard);
  u_unconsumed e v w := (w, [], None);
  u_alloc a w := (w, None);
  u_translate _ := None |}.
Definition code_ (n : nat) : event := Event n 0.

Definition q (r : req) : list (act req) := queues 0 (IUser r).
(** The scheduler is called and executes items; during the execution of each of them the given requests are made. *)
Definition runs (l : list (list req)) : list (act req) :=
  [ARun 0] ++ mjoin (map (λ rs, [ALib 0 7] ++ mjoin (map q rs) ++ [ARet]) l) ++ [ALib 0 5].
(** Check() *)
Definition check (h : nat) : list (act req) :=
  q (RCreate h) ++ runs [[]]
  ++ q (RInitiate h) ++ q (REvent h 1) ++ runs [[]; [REvent h 2]; []]
  ++ q (REvent h 3) ++ runs [[]]
  ++ q (RInitiate h) ++ q (REvent h 1) ++ runs [[]; [REvent h 2]; []]
  ++ q (REvent h 3) ++ runs [[]]
  ++ q (RDestroy h) ++ q (RInitiate h) ++ q (REvent h 1) ++ runs [[]; []; []].
(** test_main(), with two processors. *)
Definition main_ : list (act req) :=
  check 1 ++ check 2
  ++ [ARun 0; ALib 0 5]
  ++ q (RWork 1) ++ runs [[]]
  ++ queues 0 ITerm ++ [ARun 0; ALib 0 9; AAsk]
  ++ [ARun 0; ALib 0 1]
  ++ q (RWork 2) ++ [ARun 0; ALib 0 1].

(** What operator() and terminated() returned, and which plain work items were executed. *)
Definition counts_ (l : list (fev req)) : list nat :=
  omap (λ e, match e with FRunRet k => Some k | _ => None end) l.
Definition asked_ (l : list (fev req)) : list bool :=
  omap (λ e, match e with FAsk b => Some b | _ => None end) l.
Definition worked_ (l : list (fev req)) : list nat :=
  omap (λ e, match e with FStart (IUser (RWork n)) => Some n | _ => None end) l.
Definition fate_ (x : @slot (list nat)) : option (bool * list nat) :=
  match x with
  | Absent => None
  | Alive m => Some (true, world (en m))
  | Dead m => Some (false, world (en m))
  end.

Example fifo_scheduler_test :
  match aplay (λ _, chart_) (λ _, user_) (λ _, []) code_ main_
    (Asys (Sched (fifo_init false) cont_init) (λ _, Absent)) with
  | Some A =>
      (counts_ (ftr (sf (asched A))), asked_ (ftr (sf (asched A))), worked_ (ftr (sf (asched A))),
       fate_ (amach A 1), fate_ (amach A 2))
      = ([1; 3; 1; 3; 1; 3; 1; 3; 1; 3; 1; 3; 0; 1; 1; 0; 0], [true], [1],
         Some (false, [1; 1]), Some (false, [1; 1]))
  | None => False
  end.
Proof. vm_compute. reflexivity. Qed.
