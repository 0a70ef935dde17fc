(* The futures of fdaPDE/multithreading/ThreadPool.h:73-88: send_async wraps f and its arguments in a
   packaged_task, the worker that runs the task stores what f returned or threw in the shared state
   of the future.  The executions are those of ThreadPoolModel.  The body of a task is one step on
   the shared memory of the program, made when the task finishes; between the steps of the pool any
   thread may change the shared memory and the variables passed as arguments. *)
From Verif Require Import Base ThreadPoolModel.

Section Futures.
Variables V E M A : Type.   (* values, exceptions, contents of the shared memory, arguments *)
(* f: given its arguments and the shared memory it returns or throws, and leaves a new memory [ThreadPool.h:73] *)
Definition callable := A -> M -> (V + E) * M.
(* shared state of a future: nothing yet, a value, a stored exception, broken_promise [std::packaged_task, ThreadPool.h:75-77] *)
Inductive future := Pending | Done (r : V + E) | Broken.
Record fpool := mkf {
  base : pool;
  jobs : task -> option (callable * A);   (* the closure [=](){ return f(args...); } of 76: copies of f and of the arguments *)
  futs : task -> future;                  (* 77 *)
  mem : M; vars : nat -> A;               (* shared memory; the variables named in calls of send_async *)
  (* ghost: the calls of send_async with the arguments' values at that moment; the runs with the memory they started from *)
  calls : list (task * (callable * A)); runs : list (task * M) }.
(* ThreadPool(n_thread), 57-63, with m clients *)
Definition finit (n m : nat) (m0 : M) (v0 : nat -> A) : fpool := mkf (pool_init n m) (fun _ => None) (fun _ => Pending) m0 v0 [] [].
Definition put {X} (g : task -> X) (t : task) (x : X) : task -> X := fun u => if u =? t then x else g u.

(* a step of the pool, in which a call of send_async passes f and the variable v; a write to the shared
   memory; a write to a variable [any thread, around ThreadPool.h:73-88] *)
Inductive faction := FPool (a : action) (f : callable) (v : nat) | FMem (m : M) | FVar (v : nat) (x : A).
Definition fstep (x : faction) (s : fpool) : option fpool :=
  match x with
  | FMem m => Some (mkf (base s) (jobs s) (futs s) m (vars s) (calls s) (runs s))
  | FVar v x => Some (mkf (base s) (jobs s) (futs s) (mem s) (put (vars s) v x) (calls s) (runs s))
  | FPool a f v =>
    match pstep a (base s) with
    | None => None
    | Some p =>
      match a with
      | AC j (Send t) _ =>
        match nth_error (cs (base s)) j with
        | Some CIdle =>                                               (* 76-83: the closure copies the arguments *)
          Some (mkf p (put (jobs s) t (Some (f, vars s v))) (futs s) (mem s) (vars s) (calls s ++ [(t, (f, vars s v))]) (runs s))
        | _ => Some (mkf p (jobs s) (futs s) (mem s) (vars s) (calls s) (runs s))
        end
      | AW i _ =>
        match nth_error (ws (base s)) i with
        | Some (WRunning t) =>                                        (* 45, 80: the packaged_task stores the outcome *)
          match jobs s t with
          | Some (f, x) => let (r, m') := f x (mem s) in
                           Some (mkf p (jobs s) (put (futs s) t (Done r)) m' (vars s) (calls s) (runs s ++ [(t, mem s)]))
          | None => None                                              (* never happens: C224_runs *)
          end
        | Some (WKill (Some t)) =>                                    (* 43: return destroys the packaged_task it holds *)
          Some (mkf p (jobs s) (if kill (base s) then put (futs s) t Broken else futs s) (mem s) (vars s) (calls s) (runs s))
        | _ => Some (mkf p (jobs s) (futs s) (mem s) (vars s) (calls s) (runs s))
        end
      | _ => Some (mkf p (jobs s) (futs s) (mem s) (vars s) (calls s) (runs s))
      end
    end
  end.
(* all executions [ThreadPool.h:31-112] *)
Inductive freach (n m : nat) (m0 : M) (v0 : nat -> A) : fpool -> Prop :=
| freach0 : freach n m m0 v0 (finit n m m0 v0)
| freachS : forall s x s', freach n m m0 v0 s -> fstep x s = Some s' -> freach n m m0 v0 s'.
(* later states of an execution [ThreadPool.h:31-112] *)
Inductive fsteps : fpool -> fpool -> Prop :=
| fsteps0 : forall s, fsteps s s
| fstepsS : forall s x s1 s2, fstep x s = Some s1 -> fsteps s1 s2 -> fsteps s s2.
End Futures.
Arguments Pending {V E}. Arguments Done {V E}. Arguments Broken {V E}.
Arguments mkf {V E M A}. Arguments base {V E M A}. Arguments jobs {V E M A}. Arguments futs {V E M A}. Arguments mem {V E M A}.
Arguments vars {V E M A}. Arguments calls {V E M A}. Arguments runs {V E M A}. Arguments finit {V E M A}.
Arguments FPool {V E M A}. Arguments FMem {V E M A}. Arguments FVar {V E M A}.
Arguments fstep {V E M A}. Arguments freach {V E M A}. Arguments fsteps {V E M A}.
