(* Data races of fdaPDE/multithreading/ThreadPool.h and ConcurrentQueue.h: which unsynchronised
   memory locations the next statement of a thread reads or writes.  The executions are those of
   ThreadPoolModel and ConcQueueModel (sequentially consistent interleavings), the second one
   extended with size() and empty(), which take no lock.  Locations that are only written before
   the threads start (the vectors themselves, the thread handles) are not listed. *)
From Verif Require Import Base ThreadPoolModel ConcQueueModel.

(* kill_, sync_ (ThreadPool.h:25-26), state_[i] (line 16) and the std::queue inside task_queue_ (line 18) *)
Inductive loc := LKill | LSync | LState (i : nat) | LQueue.
(* one access: where, whether it writes, and whether it is made while holding the queue's own mutex
   (ConcurrentQueue.h:37, 44, 50, 61, 73; the accesses of lines 32-33 are made without it) *)
Record access := Acc { a_loc : loc; a_write : bool; a_queue_mutex : bool }.

(* accesses of the next statement of worker i, ThreadPool.h:31-52 *)
Definition wacc (s : pool) (i : nat) (w : wpc) : list access :=
  match w with
  | WPred => Acc LKill false false :: if kill s then [] else [Acc LQueue true true]    (* 39 *)
  | WKill _ => [Acc LKill false false]                                                (* 43 *)
  | WBusy _ | WIdle => [Acc (LState i) true false]                                    (* 44, 46 *)
  | WSyncChk => [Acc LSync false false]                                               (* 47 *)
  | _ => []
  end.
(* accesses of the next statement of a client, ThreadPool.h:73-112; all_of reads state_[k] for k below the number of threads *)
Definition cacc (s : pool) (call : cop) (c : cpc) : list access :=
  match c with
  | CIdle => match call with Send _ => [Acc LQueue true true] | _ => [] end           (* 83 *)
  | SSet _ => [Acc LSync true false]                                                  (* 93 *)
  | SPred _ => [Acc LQueue false false]                                               (* 95 *)
  | SCheck _ k _ _ => if k <? length (flags s) then [Acc (LState k) false false] else []   (* 96 *)
  | KSet => [Acc LKill true false]                                                    (* 104 *)
  | _ => []
  end.
(* accesses of a scheduler action [ThreadPool.h:31-112] *)
Definition accs (a : action) (s : pool) : list access :=
  match a with
  | AW i _ => match nth_error (ws s) i with Some w => wacc s i w | None => [] end
  | AC j call _ => match nth_error (cs s) j with Some c => cacc s call c | None => [] end
  | AWSpur _ | ACSpur _ => []
  end.
(* the thread that makes the step [ThreadPool.h:31-112] *)
Definition actor (a : action) : who := match a with AW i _ | AWSpur i => OW i | AC j _ _ | ACSpur j => OC j end.

(* ConcurrentQueue.h with its unlocked readers: the threads of ConcQueueModel, some of which are about to
   read the container in size() or empty() (32-33) *)
Record xqueue (V : Type) := mkxq { xq : qstate V; reading : nat -> bool; sizes : list nat (* values returned by size() *) }.
Arguments mkxq {V}. Arguments xq {V}. Arguments reading {V}. Arguments sizes {V}.
(* one statement of thread i: of push, pop, clear; a call of size()/empty(); the read of line 32-33 *)
Inductive xact (V : Type) := XOp (i : nat) (o : op V) | XCall (i : nat) | XRead (i : nat).
Arguments XOp {V}. Arguments XCall {V}. Arguments XRead {V}.
(* ConcurrentQueue.h:32-77 *)
Definition xstep {V} (a : xact V) (x : xqueue V) : option (xqueue V) :=
  match a with
  | XOp i o => if reading x i then None
               else match qstep i o (xq x) with Some s => Some (mkxq s (reading x) (sizes x)) | None => None end
  | XCall i => match pcs (xq x) i with
               | PIdle => if reading x i then None
                          else Some (mkxq (xq x) (fun j => if j =? i then true else reading x j) (sizes x))
               | _ => None
               end
  | XRead i => if reading x i
               then Some (mkxq (xq x) (fun j => if j =? i then false else reading x j) (sizes x ++ [length (items (xq x))]))
               else None
  end.
(* all interleavings of ConcurrentQueue.h:32-77 *)
Inductive xreach {V} (l : list V) : xqueue V -> Prop :=
| xreach0 : xreach l (mkxq (initial l) (fun _ => false) [])
| xreachS : forall x a x', xreach l x -> xstep a x = Some x' -> xreach l x'.
(* how the next statement of thread i touches queue_: Some true = may modify it, Some false = reads it
   [ConcurrentQueue.h:32-33, 38, 45, 51-56, 62-67, 74-75] *)
Definition touches {V} (x : xqueue V) (i : nat) : option bool :=
  if reading x i then Some false
  else match pcs (xq x) i with
       | PIn (OPush _) => Some true
       | PIn OPop => Some false            (* empty() and front() *)
       | PFront _ => Some true             (* queue_.pop() *)
       | PClearing => Some true
       | _ => None
       end.
