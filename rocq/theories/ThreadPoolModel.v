(* Model of fdaPDE/multithreading/ThreadPool.h: the worker loop and the client operations
   send_async, sync, shutdown, interleaved statement by statement under sequential consistency,
   with condition variables (including spurious wake-ups) and mutexes.  The task queue operations
   are single steps (C57 proves them linearizable).  The unsynchronised accesses to kill_, sync_,
   state_ and task_queue_.empty() are data races in C++ (PoolRaceModel lists them); here they are plain atomic accesses.
   A task is identified by a label, fresh at every send_async; its body is one start and one
   finish step.  Futures and packaged_task are added in PoolFutureModel. *)
From Verif Require Import Base.

Definition task := nat.
Inductive who := OW (i : nat) | OC (j : nat).   (* owner of a mutex: worker i or client j *)

(* program counter of a worker in execute (31-52) *)
Inductive wpc :=
| WStart                      (* 36: about to lock mutex_ *)
| WPred                       (* 39: lock held, about to evaluate the wait predicate *)
| WSleep                      (* 37: predicate false, about to release the lock and wait *)
| WWait                       (* 37: waiting on pending_ *)
| WWoken                      (* 37: woken, about to reacquire mutex_ *)
| WOut (o : option task)      (* 41: predicate true, about to release the lock *)
| WKill (o : option task)     (* 43: about to test kill_ *)
| WBusy (t : task)            (* 44: about to set BUSY *)
| WCall (t : task)            (* 45: about to call task() *)
| WRunning (t : task)         (* 45: inside task() *)
| WIdle                       (* 46: about to set IDLE *)
| WSyncChk                    (* 47: about to test sync_ *)
| WSyncLock                   (* 48: about to lock sync_mutex_ *)
| WSyncNotify                 (* 49 *)
| WSyncUnlock                 (* 50 *)
| WExit                       (* 43: returned *)
| WCrash.                     (* 45: called an empty std::function *)

Inductive cop := Send (t : task) | Sync | Shutdown.
(* program counter of a client thread; [before], [D], [missed] are ghost: the tasks submitted when
   sync() was called, the tasks dequeued when the queue was seen empty, and the tasks that a worker
   whose flag was read as IDLE was holding at that moment *)
(* statements of ThreadPool.h:73-112 *)
Inductive cpc :=
| CIdle
| CNLock | CNotify | CNUnlock                                   (* send_async 85-86 *)
| SLock (before : list task) | SSet (before : list task) | SPred (before : list task)   (* sync 92-94 *)
| SCheck (before : list task) (k : nat) (D missed : list task)  (* 95-96: reading state_[k] *)
| SSleep (before : list task) | SWait (before : list task) | SWoken (before : list task)
| SRet (before D missed : list task)                            (* 97: predicate true *)
| KLock | KSet | KUnlock | KNotify | KJoin (k : nat)            (* shutdown 103-110 *)
| CThrow.                                                       (* 109: join on a joined thread *)

Record pool := mkp {
  ws : list wpc; flags : list bool (* state_: true = BUSY *); cs : list cpc;
  queue : list task; mtx : option who (* mutex_ *); smtx : option who (* sync_mutex_ *);
  kill : bool; syncf : bool; joined : bool;
  (* ghost history: submitted, dequeued, started, finished, dropped tasks; completed syncs *)
  sub : list task; deq : list task; started : list task; finished : list task; dropped : list task;
  rets : list (list task * list task) }.

(* ThreadPool(n_thread) (57-63) with m client threads *)
Definition pool_init (n m : nat) : pool :=
  mkp (repeat WStart n) (repeat false n) (repeat CIdle m) [] None None false false false [] [] [] [] [] [].

Definition set_w (s : pool) (i : nat) (w : wpc) : pool :=
  mkp (upd (ws s) i w) (flags s) (cs s) (queue s) (mtx s) (smtx s) (kill s) (syncf s) (joined s)
      (sub s) (deq s) (started s) (finished s) (dropped s) (rets s).
Definition set_c (s : pool) (j : nat) (c : cpc) : pool :=
  mkp (ws s) (flags s) (upd (cs s) j c) (queue s) (mtx s) (smtx s) (kill s) (syncf s) (joined s)
      (sub s) (deq s) (started s) (finished s) (dropped s) (rets s).
Definition set_ws (s : pool) (l : list wpc) : pool :=
  mkp l (flags s) (cs s) (queue s) (mtx s) (smtx s) (kill s) (syncf s) (joined s)
      (sub s) (deq s) (started s) (finished s) (dropped s) (rets s).
Definition set_flag (s : pool) (i : nat) (b : bool) : pool :=
  mkp (ws s) (upd (flags s) i b) (cs s) (queue s) (mtx s) (smtx s) (kill s) (syncf s) (joined s)
      (sub s) (deq s) (started s) (finished s) (dropped s) (rets s).
(* mutex_, ThreadPool.h:36-41, 85, 103 *)
Definition set_mtx (s : pool) (o : option who) : pool :=
  mkp (ws s) (flags s) (cs s) (queue s) o (smtx s) (kill s) (syncf s) (joined s)
      (sub s) (deq s) (started s) (finished s) (dropped s) (rets s).
(* sync_mutex_, ThreadPool.h:48, 92 *)
Definition set_smtx (s : pool) (o : option who) : pool :=
  mkp (ws s) (flags s) (cs s) (queue s) (mtx s) o (kill s) (syncf s) (joined s)
      (sub s) (deq s) (started s) (finished s) (dropped s) (rets s).
(* ThreadPool.h:83 *)
Definition enqueue (s : pool) (t : task) : pool :=
  mkp (ws s) (flags s) (cs s) (queue s ++ [t]) (mtx s) (smtx s) (kill s) (syncf s) (joined s)
      (sub s ++ [t]) (deq s) (started s) (finished s) (dropped s) (rets s).
(* ThreadPool.h:39 *)
Definition dequeue (s : pool) (t : task) (q : list task) : pool :=
  mkp (ws s) (flags s) (cs s) q (mtx s) (smtx s) (kill s) (syncf s) (joined s)
      (sub s) (deq s ++ [t]) (started s) (finished s) (dropped s) (rets s).
(* ghost: ThreadPool.h:45 *)
Definition log_start (s : pool) (t : task) : pool :=
  mkp (ws s) (flags s) (cs s) (queue s) (mtx s) (smtx s) (kill s) (syncf s) (joined s)
      (sub s) (deq s) (started s ++ [t]) (finished s) (dropped s) (rets s).
(* ghost: ThreadPool.h:45 *)
Definition log_finish (s : pool) (t : task) : pool :=
  mkp (ws s) (flags s) (cs s) (queue s) (mtx s) (smtx s) (kill s) (syncf s) (joined s)
      (sub s) (deq s) (started s) (finished s ++ [t]) (dropped s) (rets s).
(* ghost: a task popped and not run, ThreadPool.h:43 *)
Definition log_drop (s : pool) (o : option task) : pool :=
  mkp (ws s) (flags s) (cs s) (queue s) (mtx s) (smtx s) (kill s) (syncf s) (joined s)
      (sub s) (deq s) (started s) (finished s) (dropped s ++ match o with Some t => [t] | None => [] end) (rets s).
(* ghost: the return of ThreadPool.h:98 *)
Definition log_ret (s : pool) (x : list task * list task) : pool :=
  mkp (ws s) (flags s) (cs s) (queue s) (mtx s) (smtx s) (kill s) (syncf s) (joined s)
      (sub s) (deq s) (started s) (finished s) (dropped s) (rets s ++ [x]).
(* ThreadPool.h:104 *)
Definition set_kill (s : pool) : pool :=
  mkp (ws s) (flags s) (cs s) (queue s) (mtx s) (smtx s) true (syncf s) (joined s)
      (sub s) (deq s) (started s) (finished s) (dropped s) (rets s).
(* ThreadPool.h:93 *)
Definition set_sync (s : pool) : pool :=
  mkp (ws s) (flags s) (cs s) (queue s) (mtx s) (smtx s) (kill s) true (joined s)
      (sub s) (deq s) (started s) (finished s) (dropped s) (rets s).
(* ThreadPool.h:108-110 *)
Definition set_joined (s : pool) : pool :=
  mkp (ws s) (flags s) (cs s) (queue s) (mtx s) (smtx s) (kill s) (syncf s) true
      (sub s) (deq s) (started s) (finished s) (dropped s) (rets s).

(* ThreadPool.h:37 *)
Definition is_wwait (w : wpc) : bool := match w with WWait => true | _ => false end.
(* ThreadPool.h:94 *)
Definition is_swait (c : cpc) : bool := match c with SWait _ => true | _ => false end.
(* pending_.notify_one(): some waiting worker (the scheduler's choice k) is woken, if there is any [ThreadPool.h:86] *)
Definition notify_worker (s : pool) (k : nat) : option pool :=
  if existsb is_wwait (ws s) then
    match nth_error (ws s) k with Some WWait => Some (set_w s k WWoken) | _ => None end
  else Some s.
(* sync_condition_.notify_one() [ThreadPool.h:49] *)
Definition notify_client (s : pool) (k : nat) : option pool :=
  if existsb is_swait (cs s) then
    match nth_error (cs s) k with Some (SWait b) => Some (set_c s k (SWoken b)) | _ => None end
  else Some s.
(* pending_.notify_all() [ThreadPool.h:106] *)
Definition notify_all (s : pool) : pool :=
  set_ws s (map (fun w => match w with WWait => WWoken | _ => w end) (ws s)).

(* task in the hands of a worker between the pop (39) and the BUSY flag (44) *)
Definition window (w : wpc) : list task :=
  match w with WOut (Some t) | WKill (Some t) | WBusy t => [t] | _ => [] end.

(* one statement of worker i [ThreadPool.h:31-52] *)
Definition wstep (s : pool) (i k : nat) (w : wpc) : option pool :=
  match w with
  | WStart | WWoken => match mtx s with
                       | None => Some (set_w (set_mtx s (Some (OW i))) i WPred)
                       | Some _ => None
                       end
  | WPred => if kill s then Some (set_w s i (WOut None))
             else match queue s with
                  | t :: q => Some (set_w (dequeue s t q) i (WOut (Some t)))
                  | [] => Some (set_w s i WSleep)
                  end
  | WSleep => Some (set_w (set_mtx s None) i WWait)
  | WWait => None
  | WOut o => Some (set_w (set_mtx s None) i (WKill o))
  | WKill o => if kill s then Some (set_w (log_drop s o) i WExit)
               else match o with
                    | Some t => Some (set_w s i (WBusy t))
                    | None => Some (set_w s i WCrash)
                    end
  | WBusy t => Some (set_w (set_flag s i true) i (WCall t))
  | WCall t => Some (set_w (log_start s t) i (WRunning t))
  | WRunning t => Some (set_w (log_finish s t) i WIdle)
  | WIdle => Some (set_w (set_flag s i false) i WSyncChk)
  | WSyncChk => if syncf s then Some (set_w s i WSyncLock) else Some (set_w s i WStart)
  | WSyncLock => match smtx s with
                 | None => Some (set_w (set_smtx s (Some (OW i))) i WSyncNotify)
                 | Some _ => None
                 end
  | WSyncNotify => match notify_client s k with
                   | Some s' => Some (set_w s' i WSyncUnlock)
                   | None => None
                   end
  | WSyncUnlock => Some (set_w (set_smtx s None) i WStart)
  | WExit | WCrash => None
  end.

(* one statement of client j; [call] is the operation an idle client chooses [ThreadPool.h:73-112] *)
Definition cstep (s : pool) (j : nat) (call : cop) (k : nat) (c : cpc) : option pool :=
  match c with
  | CIdle => match call with
             | Send t => if existsb (Nat.eqb t) (sub s) then None
                         else Some (set_c (enqueue s t) j CNLock)               (* 83 *)
             | Sync => Some (set_c s j (SLock (sub s)))
             | Shutdown => Some (set_c s j KLock)
             end
  | CNLock => match mtx s with
              | None => Some (set_c (set_mtx s (Some (OC j))) j CNotify)
              | Some _ => None
              end
  | CNotify => match notify_worker s k with
               | Some s' => Some (set_c s' j CNUnlock)
               | None => None
               end
  | CNUnlock => Some (set_c (set_mtx s None) j CIdle)
  | SLock b => match smtx s with
               | None => Some (set_c (set_smtx s (Some (OC j))) j (SSet b))
               | Some _ => None
               end
  | SSet b => Some (set_c (set_sync s) j (SPred b))
  | SPred b => match queue s with
               | [] => Some (set_c s j (SCheck b 0 (deq s) []))
               | _ :: _ => Some (set_c s j (SSleep b))
               end
  | SCheck b i D m => match nth_error (flags s) i, nth_error (ws s) i with
                      | Some true, _ => Some (set_c s j (SSleep b))
                      | Some false, Some w => Some (set_c s j (SCheck b (S i) D (m ++ window w)))
                      | _, _ => Some (set_c s j (SRet b D m))
                      end
  | SSleep b => Some (set_c (set_smtx s None) j (SWait b))
  | SWait _ => None
  | SWoken b => match smtx s with
                | None => Some (set_c (set_smtx s (Some (OC j))) j (SPred b))
                | Some _ => None
                end
  | SRet b D m => Some (set_c (log_ret (set_smtx s None) (b, m)) j CIdle)
  | KLock => match mtx s with
             | None => Some (set_c (set_mtx s (Some (OC j))) j KSet)
             | Some _ => None
             end
  | KSet => Some (set_c (set_kill s) j KUnlock)
  | KUnlock => Some (set_c (set_mtx s None) j KNotify)
  | KNotify => Some (set_c (notify_all s) j (KJoin 0))
  | KJoin i => if joined s then Some (set_c s j CThrow)
               else match nth_error (ws s) i with
                    | Some WExit => Some (set_c s j (KJoin (S i)))
                    | Some _ => None                              (* blocked in join() *)
                    | None => Some (set_c (set_joined s) j CIdle)
                    end
  | CThrow => None
  end.

(* scheduler actions; AWSpur / ACSpur are spurious wake-ups [the scheduler of ThreadPool.h:31-112] *)
Inductive action := AW (i k : nat) | AWSpur (i : nat) | AC (j : nat) (call : cop) (k : nat) | ACSpur (j : nat).
(* the scheduler of ThreadPool.h:31-112 *)
Definition pstep (a : action) (s : pool) : option pool :=
  match a with
  | AW i k => match nth_error (ws s) i with Some w => wstep s i k w | None => None end
  | AWSpur i => match nth_error (ws s) i with Some WWait => Some (set_w s i WWoken) | _ => None end
  | AC j call k => match nth_error (cs s) j with Some c => cstep s j call k c | None => None end
  | ACSpur j => match nth_error (cs s) j with Some (SWait b) => Some (set_c s j (SWoken b)) | _ => None end
  end.

(* all executions of ThreadPool.h:31-112 *)
Inductive preach (n m : nat) : pool -> Prop :=
| preach0 : preach n m (pool_init n m)
| preachS : forall s a s', preach n m s -> pstep a s = Some s' -> preach n m s'.
