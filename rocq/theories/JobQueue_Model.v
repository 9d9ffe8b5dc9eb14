(** Model of sm_boost/src/JobQueue.cpp, include/sm/boost/JobQueue.hpp and implementation/JobQueue.hpp.
    A transition system: any number of worker threads (exec_loop) and any number of concurrent calls of the public
    functions (made by any thread, also by running jobs), interleaved arbitrarily.  The steps are the code between two
    points where another thread can interfere: a critical section that touches only data protected by mutex_ is one
    step (it needs the mutex to be free); in exec_loop the steps are finer because killWorkers_ is read inside and
    written (by stop) outside of the critical section.  Condition variables: notify_all moves every sleeping thread to
    the state in which it re-acquires the mutex; spurious wake-ups are separate steps.  Memory is sequentially
    consistent. *)
From Coq Require Export List Arith Lia Bool Permutation.
Import ListNotations.

(** What running a job's function produces. *)
Inductive outcome := Returns (v : nat) | Throws (e : nat).
(** A queued boost::function: [jid] identifies it (and its future), [jfut]: made by scheduleFuture
    (implementation/JobQueue.hpp:24-30, a packaged_task stores value or exception in the future), otherwise
    scheduleWork's bare function. *)
Record job := mkJob { jid : nat; jfut : bool; jres : outcome }.

(** Program counter of exec_loop (JobQueue.cpp:58-80). *)
Inductive wpc :=
  | WInit               (* thread created, before scoped_lock (59) *)
  | WTest               (* holds the mutex, before the test of the inner while (62) *)
  | WBlock              (* holds the mutex, the test said wait, before condition_.wait (63) *)
  | WWait               (* asleep in condition_.wait *)
  | WWake               (* notified, before re-acquiring the mutex *)
  | WCheck              (* holds the mutex, left the inner while, before if (killWorkers_) (64) *)
  | WExit               (* holds the mutex, about to return (67) *)
  | WRun (j : job)      (* executing f() (75), mutex released *)
  | WRelock             (* f() returned, before lck.lock() (76) *)
  | WDone.
(** Program counter of a call of a public function. *)
Inductive cpc :=
  | CSched (j : job)    (* scheduleWork (14-19) *)
  | CStart (n : nat)    (* start (21-30) before the test of work_ *)
  | CStarting (n : nat) (* still n threads to create *)
  | CStop               (* stop (32-34) *)
  | CJoin0              (* join (36-41) before stop() *)
  | CJoin1              (* before condition_.notify_all() *)
  | CJoin2              (* in work_->join_all() *)
  | CEmpty              (* empty (43-47) *)
  | CWait0              (* waitForEmptyQueue (49-56), before acquiring the mutex *)
  | CWaitSleep          (* asleep in workCondition_.wait *)
  | CDtor0              (* ~JobQueue (6-12) *)
  | CDtorSleep          (* asleep in condition_.wait (11) *)
  | CDtor1              (* woken, before re-acquiring the mutex *)
  | CRet (b : bool).    (* returned; b is the result of empty() *)

Inductive fres := FReady (o : outcome) | FBroken.
Inductive ubkind := UBPopEmpty | UBNullJoin | UBWorkerAfterDtor | UBCallAfterDtor.

Record state := mkSt {
  kill : bool; pool : nat; active : nat; q : list job;      (* members of JobQueue *)
  created : bool;                                           (* work_ is not null *)
  lock : option nat;                                        (* worker holding mutex_ between two steps *)
  workers : list wpc; calls : list cpc;
  destroyed : bool; aborted : bool; ub : option ubkind;
  nextid : nat; futs : list (nat * fres);
  sched : list job; started : list job; finished : list job (* logs, for the specification *) }.
(** constructor (5) *)
Definition init : state := mkSt false 0 0 [] false None [] [] false false None 0 [] [] [] [].

(** Calls a client can make. *)
Inductive request := RSchedule (fut : bool) (o : outcome) | RStart (n : nat) | RStop | RJoin | REmpty | RWaitEmpty | RDestroy.
Inductive label :=
  | LWorker (i : nat)       (* worker i makes a step *)
  | LCall (k : nat)         (* call k makes a step *)
  | LNew (r : request)      (* some thread makes a new call *)
  | LSpurW (i : nat) | LSpurC (k : nat).   (* spurious wake-ups *)

Fixpoint upd {A} (l : list A) (i : nat) (x : A) : list A :=
  match l, i with
  | [], _ => []
  | _ :: l', 0 => x :: l'
  | y :: l', S i' => y :: upd l' i' x
  end.
Fixpoint lookup {A} (l : list (nat * A)) (k : nat) : option A :=
  match l with [] => None | (k', v) :: l' => if Nat.eqb k' k then Some v else lookup l' k end.

Definition wake_worker (w : wpc) : wpc := match w with WWait => WWake | _ => w end.
Definition wake_dtor (c : cpc) : cpc := match c with CDtorSleep => CDtor1 | _ => c end.
Definition wake_waiter (c : cpc) : cpc := match c with CWaitSleep => CWait0 | _ => c end.

(** field updates *)
Definition set_w (s : state) (i : nat) (w : wpc) : state :=
  mkSt (kill s) (pool s) (active s) (q s) (created s) (lock s) (upd (workers s) i w) (calls s) (destroyed s) (aborted s)
    (ub s) (nextid s) (futs s) (sched s) (started s) (finished s).
Definition set_c (s : state) (k : nat) (c : cpc) : state :=
  mkSt (kill s) (pool s) (active s) (q s) (created s) (lock s) (workers s) (upd (calls s) k c) (destroyed s) (aborted s)
    (ub s) (nextid s) (futs s) (sched s) (started s) (finished s).
Definition set_lock (s : state) (l : option nat) : state :=
  mkSt (kill s) (pool s) (active s) (q s) (created s) l (workers s) (calls s) (destroyed s) (aborted s)
    (ub s) (nextid s) (futs s) (sched s) (started s) (finished s).
Definition set_pool (s : state) (n : nat) : state :=
  mkSt (kill s) n (active s) (q s) (created s) (lock s) (workers s) (calls s) (destroyed s) (aborted s)
    (ub s) (nextid s) (futs s) (sched s) (started s) (finished s).
Definition set_kill (s : state) : state :=
  mkSt true (pool s) (active s) (q s) (created s) (lock s) (workers s) (calls s) (destroyed s) (aborted s)
    (ub s) (nextid s) (futs s) (sched s) (started s) (finished s).
Definition set_ub (s : state) (u : ubkind) : state :=
  mkSt (kill s) (pool s) (active s) (q s) (created s) (lock s) (workers s) (calls s) (destroyed s) (aborted s)
    (Some u) (nextid s) (futs s) (sched s) (started s) (finished s).
(** condition_.notify_all() / workCondition_.notify_all() *)
Definition notify_cond (s : state) : state :=
  mkSt (kill s) (pool s) (active s) (q s) (created s) (lock s) (map wake_worker (workers s)) (map wake_dtor (calls s))
    (destroyed s) (aborted s) (ub s) (nextid s) (futs s) (sched s) (started s) (finished s).
Definition notify_work (s : state) : state :=
  mkSt (kill s) (pool s) (active s) (q s) (created s) (lock s) (workers s) (map wake_waiter (calls s))
    (destroyed s) (aborted s) (ub s) (nextid s) (futs s) (sched s) (started s) (finished s).
(** q_.push_back(fn) (17) *)
Definition push (s : state) (j : job) : state :=
  mkSt (kill s) (pool s) (active s) (q s ++ [j]) (created s) (lock s) (workers s) (calls s)
    (destroyed s) (aborted s) (ub s) (nextid s) (futs s) (sched s ++ [j]) (started s) (finished s).
(** f = q_.front(); q_.pop_front(); ++activeThreads_ (69-71) *)
Definition pop (s : state) (j : job) (q' : list job) : state :=
  mkSt (kill s) (pool s) (S (active s)) q' (created s) (lock s) (workers s) (calls s)
    (destroyed s) (aborted s) (ub s) (nextid s) (futs s) (sched s) (started s ++ [j]) (finished s).
(** f() ends: a packaged_task stores the result in its future, an exception of a bare function reaches
    boost::thread and calls std::terminate. *)
Definition finish (s : state) (j : job) : state :=
  mkSt (kill s) (pool s) (active s) (q s) (created s) (lock s) (workers s) (calls s) (destroyed s)
    (match jfut j, jres j with false, Throws _ => true | _, _ => aborted s end)
    (ub s) (nextid s) (if jfut j then (jid j, FReady (jres j)) :: futs s else futs s)
    (sched s) (started s) (finished s ++ [j]).
(** --activeThreads_ (77) *)
Definition dec_active (s : state) : state :=
  mkSt (kill s) (pool s) (pred (active s)) (q s) (created s) (lock s) (workers s) (calls s) (destroyed s) (aborted s)
    (ub s) (nextid s) (futs s) (sched s) (started s) (finished s).
Definition set_created (s : state) : state :=
  mkSt (kill s) (pool s) (active s) (q s) true (lock s) (workers s) (calls s) (destroyed s) (aborted s)
    (ub s) (nextid s) (futs s) (sched s) (started s) (finished s).
(** work_->create_thread(bind(&JobQueue::exec_loop, this)) (27) *)
Definition new_thread (s : state) : state :=
  mkSt (kill s) (pool s) (active s) (q s) (created s) (lock s) (workers s ++ [WInit]) (calls s) (destroyed s) (aborted s)
    (ub s) (nextid s) (futs s) (sched s) (started s) (finished s).
(** end of ~JobQueue: the members are destroyed; the packaged_tasks still queued break their promises *)
Definition destroy (s : state) : state :=
  mkSt (kill s) (pool s) (active s) (q s) (created s) (lock s) (workers s) (calls s) true (aborted s)
    (ub s) (nextid s) (map (fun j => (jid j, FBroken)) (filter jfut (q s)) ++ futs s) (sched s) (started s) (finished s).

Definition free (s : state) : bool := match lock s with None => true | Some _ => false end.

(** exec_loop, one step of worker i *)
Definition step_worker (s : state) (i : nat) : option state :=
  match nth_error (workers s) i with
  | None => None
  | Some WInit =>
      if destroyed s then Some (set_ub s UBWorkerAfterDtor)
      else if free s then Some (set_w (set_lock (set_pool s (S (pool s))) (Some i)) i WTest) else None
  | Some WTest =>
      if (match q s with [] => true | _ => false end) && negb (kill s) then Some (set_w s i WBlock)
      else Some (set_w s i WCheck)
  | Some WBlock => Some (set_w (set_lock s None) i WWait)
  | Some WWait => None
  | Some WWake =>
      if destroyed s then Some (set_ub s UBWorkerAfterDtor)
      else if free s then Some (set_w (set_lock s (Some i)) i WTest) else None
  | Some WCheck =>
      if kill s then Some (set_w (notify_cond (set_pool s (pred (pool s)))) i WExit)
      else match q s with
           | [] => Some (set_ub s UBPopEmpty)
           | j :: q' => Some (set_w (set_lock (pop s j q') None) i (WRun j))
           end
  | Some WExit => Some (set_w (set_lock s None) i WDone)
  | Some (WRun j) => Some (set_w (finish s j) i WRelock)
  | Some WRelock =>
      if destroyed s then Some (set_ub s UBWorkerAfterDtor)
      else if free s then Some (set_w (notify_work (dec_active (set_lock s (Some i)))) i WTest) else None
  | Some WDone => None
  end.

Definition is_done (w : wpc) : bool := match w with WDone => true | _ => false end.
(** the public functions, one step of call k *)
Definition step_call (s : state) (k : nat) : option state :=
  match nth_error (calls s) k with
  | None => None
  | Some (CRet _) => None
  | Some c =>
    if destroyed s then Some (set_ub s UBCallAfterDtor) else
    match c with
    | CSched j => if free s then Some (set_c (notify_cond (push s j)) k (CRet false)) else None
    | CStart n => if created s then Some (set_c s k (CRet false)) else Some (set_c (set_created s) k (CStarting n))
    | CStarting 0 => Some (set_c s k (CRet false))
    | CStarting (S n) => Some (set_c (new_thread s) k (CStarting n))
    | CStop => Some (set_c (set_kill s) k (CRet false))
    | CJoin0 => Some (set_c (set_kill s) k CJoin1)
    | CJoin1 => Some (set_c (notify_cond s) k CJoin2)
    | CJoin2 => if created s then (if forallb is_done (workers s) then Some (set_c s k (CRet false)) else None)
                else Some (set_ub s UBNullJoin)
    | CEmpty => if free s then Some (set_c s k (CRet (match q s with [] => true | _ => false end))) else None
    | CWait0 => if free s then
                  (if negb (active s =? 0) || negb (match q s with [] => true | _ => false end)
                   then Some (set_c s k CWaitSleep) else Some (set_c s k (CRet false)))
                else None
    | CDtor0 => if free s then
                  (let s' := notify_cond (set_kill s) in
                   if pool s =? 0 then Some (destroy (set_c s' k (CRet false))) else Some (set_c s' k CDtorSleep))
                else None
    | CDtor1 => if free s then
                  (if pool s =? 0 then Some (destroy (set_c s k (CRet false))) else Some (set_c s k CDtorSleep))
                else None
    | CWaitSleep | CDtorSleep | CRet _ => None
    end
  end.

Definition new_call (s : state) (c : cpc) (n : nat) : state :=
  mkSt (kill s) (pool s) (active s) (q s) (created s) (lock s) (workers s) (calls s ++ [c]) (destroyed s) (aborted s)
    (ub s) n (futs s) (sched s) (started s) (finished s).
Definition step_new (s : state) (r : request) : option state :=
  if destroyed s then None else    (* clients do not use a destroyed queue *)
  Some match r with
  | RSchedule fut o => new_call s (CSched (mkJob (nextid s) fut o)) (S (nextid s))
  | RStart n => new_call s (CStart n) (nextid s)
  | RStop => new_call s CStop (nextid s)
  | RJoin => new_call s CJoin0 (nextid s)
  | REmpty => new_call s CEmpty (nextid s)
  | RWaitEmpty => new_call s CWait0 (nextid s)
  | RDestroy => new_call s CDtor0 (nextid s)
  end.

Definition stopped (s : state) : bool := aborted s || match ub s with None => false | Some _ => true end.
Definition step (s : state) (l : label) : option state :=
  if stopped s then None else
  match l with
  | LWorker i => step_worker s i
  | LCall k => step_call s k
  | LNew r => step_new s r
  | LSpurW i => match nth_error (workers s) i with Some WWait => Some (set_w s i WWake) | _ => None end
  | LSpurC k => match nth_error (calls s) k with
                | Some CWaitSleep => Some (set_c s k CWait0)
                | Some CDtorSleep => Some (set_c s k CDtor1)
                | _ => None
                end
  end.
Fixpoint run (s : state) (ls : list label) : option state :=
  match ls with
  | [] => Some s
  | l :: ls' => match step s l with Some s' => run s' ls' | None => None end
  end.
Definition reachable (s : state) : Prop := exists ls, run init ls = Some s.
