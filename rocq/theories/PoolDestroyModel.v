(* The implicit destructor of fdaPDE/multithreading/ThreadPool.h: the class declares none, so the members of lines 16-28 are destroyed
   in reverse order: thread_pool_ (20), whose std::thread objects call std::terminate when they are still joinable, then
   task_queue_ (18), which destroys the packaged_tasks it holds and so breaks their promises.  It may only run when no client is
   inside an operation of the pool (otherwise it is undefined behaviour); the threads are joinable until shutdown() has joined them. *)
From Verif Require Import Base ThreadPoolModel PoolFutureModel.

(* no client is inside send_async, sync or shutdown, ThreadPool.h:73-112 (CThrow: shutdown() has thrown) *)
Definition nobody_inside (p : pool) : Prop := forall j c, nth_error (cs p) j = Some c -> c = CIdle \/ c = CThrow.
(* what the destruction does: std::terminate, or the shared states of the futures afterwards *)
Inductive destroyed (V E : Type) := Terminate | Destroyed (after : task -> future V E).
Arguments Terminate {V E}. Arguments Destroyed {V E}.
(* ~ThreadPool(), implicit [ThreadPool.h:16-28, 57-63, 108-110] *)
Definition destroy {V E M A} (s : fpool V E M A) : destroyed V E :=
  if joined (base s) then Destroyed (fun t => if existsb (Nat.eqb t) (queue (base s)) then Broken else futs s t)
  else match ws (base s) with
       | [] => Destroyed (fun t => if existsb (Nat.eqb t) (queue (base s)) then Broken else futs s t)   (* no thread *)
       | _ :: _ => Terminate
       end.
