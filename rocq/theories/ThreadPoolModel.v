(** * Model: ThreadPool (k2/csrc/thread_pool.h:17-103, thread_pool.cu:13-84)

    All members are read and written with the mutex held, so one critical
    section (from taking the mutex to releasing it, or to blocking in
    condition_variable::wait, which releases it) is one step.  A schedule picks
    the thread that takes the next step and, for notify_one, which of the waiting
    threads wakes up; spurious wakeups are steps of their own.  std::mutex,
    std::condition_variable and std::thread are trusted. *)
From Coq Require Import ZArith List Lia Bool.
From Verif Require Import Base.
Import ListNotations.
Open Scope Z_scope.

(** A task has a name and may submit further tasks while it runs. *)
Inductive task := Task (id : Z) (subs : list task).
Definition tid (t : task) : Z := let 'Task i _ := t in i.

(** Where a worker is in ProcessTasks (thread_pool.cu:44-78) *)
Inductive wst :=
| WStart                              (* wants the mutex to (re)enter the loop *)
| WWait                               (* blocked in not_empty_cond_.wait (line 50) *)
| WRun (id : Z) (subs : list task)    (* in task() (line 60); has still to submit subs *)
| WPost                               (* after task(), wants the mutex (line 64) *)
| WExit.                              (* returned *)

(** What another thread does with the pool; the destructor is CWait, CStop, CJoin
    (thread_pool.cu:26-34). *)
Inductive cop := CSubmit (t : task) | CWait | CStop | CJoin.
Inductive cst :=
| CRun (prog : list cop)
| CBlocked (prog : list cop).         (* in empty_cond_.wait (line 40); prog follows the wait *)

Record st := mkSt {
  s_queue : list task;      (* tasks_ *)
  s_keep : bool;            (* keep_running_ *)
  s_fin : bool;             (* finished_ *)
  s_run : Z;                (* running_counter_ *)
  s_ws : list wst;
  s_cs : list cst;
  (* history: tasks submitted, taken from the queue, completed *)
  h_sub : list Z; h_start : list Z; h_done : list Z }.

Inductive actor := Worker (i : Z) | Client (i : Z) | SpurW (i : Z) | SpurC (i : Z).
(** who moves; the waiting worker / client that a notify_one wakes, if any waits *)
Record choice := Ch { who : actor; wake_w : Z; wake_c : Z }.

Definition w_waits (w : wst) : bool := match w with WWait => true | _ => false end.
Definition c_waits (c : cst) : bool := match c with CBlocked _ => true | _ => false end.
Definition w_wake (w : wst) : wst := match w with WWait => WStart | _ => w end.
(** after waking up, WaitAllTasksFinished tests finished_ again (line 38) *)
Definition c_wake (c : cst) : cst := match c with CBlocked p => CRun (CWait :: p) | _ => c end.

(** condition_variable::notify_one *)
Definition notify_one {A} (waits : A -> bool) (wake : A -> A) (l : list A) (i : Z) : option (list A) :=
  if existsb waits l then x <- rd l i;; check (waits x);; wr l i (wake x) else Some l.

(** thread_pool.h:52-59 SubmitTask *)
Definition submit (s : st) (t : task) (iw : Z) : option st :=
  check (0 <? zlen (s_ws s));;
  ws <- notify_one w_waits w_wake (s_ws s) iw;;
  Some (mkSt (s_queue s ++ [t]) (s_keep s) false (s_run s) ws (s_cs s) (h_sub s ++ [tid t]) (h_start s) (h_done s)).

(** thread_pool.cu:46-59: the loop condition, the inner loop and taking a task;
    the mutex is held *)
Definition loop_head (s : st) (i iw : Z) : option st :=
  if s_keep s then
    match s_queue s with
    | [] => ws <- wr (s_ws s) i WWait;;
            Some (mkSt [] (s_keep s) (s_fin s) (s_run s) ws (s_cs s) (h_sub s) (h_start s) (h_done s))
    | Task id subs :: q =>
        ws1 <- (match q with [] => Some (s_ws s) | _ => notify_one w_waits w_wake (s_ws s) iw end);;
        ws2 <- wr ws1 i (WRun id subs);;
        Some (mkSt q (s_keep s) (s_fin s) (s_run s + 1) ws2 (s_cs s) (h_sub s) (h_start s ++ [id]) (h_done s))
    end
  else
    ws <- wr (s_ws s) i WExit;;
    Some (mkSt (s_queue s) (s_keep s) (s_fin s) (s_run s) ws (s_cs s) (h_sub s) (h_start s) (h_done s)).

(** thread_pool.cu:64-71, after the task *)
Definition post (s : st) (ic : Z) : option st :=
  let n := s_run s - 1 in
  match s_queue s with
  | [] =>
      if n =? 0 then
        cs <- notify_one c_waits c_wake (s_cs s) ic;;
        Some (mkSt [] (s_keep s) true n (s_ws s) cs (h_sub s) (h_start s) (h_done s))
      else Some (mkSt [] (s_keep s) (s_fin s) n (s_ws s) (s_cs s) (h_sub s) (h_start s) (h_done s))
  | q => Some (mkSt q (s_keep s) (s_fin s) n (s_ws s) (s_cs s) (h_sub s) (h_start s) (h_done s))
  end.

Definition set_w (s : st) (i : Z) (w : wst) : option st :=
  ws <- wr (s_ws s) i w;;
  Some (mkSt (s_queue s) (s_keep s) (s_fin s) (s_run s) ws (s_cs s) (h_sub s) (h_start s) (h_done s)).
Definition set_c (s : st) (i : Z) (c : cst) : option st :=
  cs <- wr (s_cs s) i c;;
  Some (mkSt (s_queue s) (s_keep s) (s_fin s) (s_run s) (s_ws s) cs (h_sub s) (h_start s) (h_done s)).

Definition step_worker (s : st) (i iw ic : Z) : option st :=
  w <- rd (s_ws s) i;;
  match w with
  | WStart => loop_head s i iw
  | WRun id (t :: subs) => s1 <- submit s t iw;; set_w s1 i (WRun id subs)
  | WRun id [] =>
      s1 <- set_w s i WPost;;
      Some (mkSt (s_queue s1) (s_keep s1) (s_fin s1) (s_run s1) (s_ws s1) (s_cs s1) (h_sub s1) (h_start s1) (h_done s1 ++ [id]))
  | WPost => s1 <- post s ic;; loop_head s1 i iw        (* the mutex stays held *)
  | WWait | WExit => None
  end.
Definition step_client (s : st) (i iw : Z) : option st :=
  c <- rd (s_cs s) i;;
  match c with
  | CRun (CSubmit t :: p) => s1 <- submit s t iw;; set_c s1 i (CRun p)
  (* thread_pool.cu:36-42 WaitAllTasksFinished *)
  | CRun (CWait :: p) => set_c s i (if s_fin s then CRun p else CBlocked p)
  (* thread_pool.cu:28-32 *)
  | CRun (CStop :: p) =>
      s1 <- set_c s i (CRun p);;
      Some (mkSt (s_queue s1) false (s_fin s1) (s_run s1) (map w_wake (s_ws s1)) (s_cs s1) (h_sub s1) (h_start s1) (h_done s1))
  (* thread_pool.cu:33 *)
  | CRun (CJoin :: p) =>
      check (forallb (fun w => match w with WExit => true | _ => false end) (s_ws s));; set_c s i (CRun p)
  | CRun [] | CBlocked _ => None
  end.
Definition step (c : choice) (s : st) : option st :=
  match who c with
  | Worker i => step_worker s i (wake_w c) (wake_c c)
  | Client i => step_client s i (wake_w c)
  | SpurW i => w <- rd (s_ws s) i;; check (w_waits w);; set_w s i (w_wake w)
  | SpurC i => x <- rd (s_cs s) i;; check (c_waits x);; set_c s i (c_wake x)
  end.
Fixpoint run (h : list choice) (s : st) : option st :=
  match h with [] => Some s | c :: h => s' <- step c s;; run h s' end.

(** thread_pool.cu:20-24: the pool as constructed, with the programs of the
    threads that use it *)
Definition init (n : nat) (progs : list (list cop)) : st :=
  mkSt [] true true 0 (repeat WStart n) (map CRun progs) [] [] [].
