(* Model of fdaPDE/multithreading/ConcurrentQueue.h: arbitrarily many threads running the
   mutex-protected operations, interleaved at the level of single statements (sequentially
   consistent interleaving).  size() and empty() (32-33), which read the queue without taking the
   mutex, are added in PoolRaceModel. *)
From Verif Require Import Base.

Section CQ.
Variable V : Type.

(* push / emplace (35-45), pop in both forms (48-70), clear (73-78) *)
Inductive op := OPush (v : V) | OPop | OClear.
(* what a call returns: nothing, or an optional value (pop() and pop(buff) agree) [ConcurrentQueue.h:36, 43, 49, 60, 72] *)
Inductive result := RUnit | ROpt (o : option V).

(* program counter of a thread [statements of ConcurrentQueue.h:36-77] *)
Inductive pc :=
| PIdle                      (* outside of the queue *)
| PWant (o : op)             (* called, waiting for lock_guard *)
| PIn (o : op)               (* lock held, before the body *)
| PFront (v : V)             (* pop: value = queue_.front() done, queue_.pop() pending *)
| PClearing                  (* clear: inside the while loop *)
| POut (o : op) (r : result). (* body done, about to unlock and return *)

(* events: call, effect (ghost), return [calls and returns of ConcurrentQueue.h:36-77; ghost data] *)
Inductive event := EInv (i : nat) (o : op) | ELin (i : nat) (o : op) (r : result) | ERes (i : nat) (o : op) (r : result).

(* queue_ and mutex_ of ConcurrentQueue.h:18-22, with the threads *)
Record qstate := mkq { items : list V; owner : option nat; pcs : nat -> pc; hist : list event }.
(* the thread moves to its next statement; ghost data of ConcurrentQueue.h:36-77 *)
Definition set_pc (f : nat -> pc) (i : nat) (p : pc) : nat -> pc := fun j => if j =? i then p else f j.

(* constructors, ConcurrentQueue.h:26-29 *)
Definition initial (l : list V) : qstate := mkq l None (fun _ => PIdle) [].

(* one statement of thread i; [call] is the operation an idle thread chooses to invoke [ConcurrentQueue.h:36-77] *)
Definition qstep (i : nat) (call : op) (s : qstate) : option qstate :=
  let set p := set_pc (pcs s) i p in
  match pcs s i with
  | PIdle => Some (mkq (items s) (owner s) (set (PWant call)) (hist s ++ [EInv i call]))
  | PWant o => match owner s with
               | None => Some (mkq (items s) (Some i) (set (PIn o)) (hist s))
               | Some _ => None                                   (* blocked on the mutex *)
               end
  | PIn (OPush v) => Some (mkq (items s ++ [v]) (owner s) (set (POut (OPush v) RUnit)) (hist s ++ [ELin i (OPush v) RUnit]))
  | PIn OPop => match items s with
                | [] => Some (mkq [] (owner s) (set (POut OPop (ROpt None))) (hist s ++ [ELin i OPop (ROpt None)]))
                | v :: _ => Some (mkq (items s) (owner s) (set (PFront v)) (hist s))
                end
  | PFront v => Some (mkq (tl (items s)) (owner s) (set (POut OPop (ROpt (Some v)))) (hist s ++ [ELin i OPop (ROpt (Some v))]))
  | PIn OClear => Some (mkq (items s) (owner s) (set PClearing) (hist s))
  | PClearing => match items s with
                 | [] => Some (mkq [] (owner s) (set (POut OClear RUnit)) (hist s ++ [ELin i OClear RUnit]))
                 | _ :: l => Some (mkq l (owner s) (set PClearing) (hist s))
                 end
  | POut o r => Some (mkq (items s) None (set PIdle) (hist s ++ [ERes i o r]))
  end.

(* all interleavings of ConcurrentQueue.h:36-77 *)
Inductive qreach (l : list V) : qstate -> Prop :=
| qreach0 : qreach l (initial l)
| qreachS : forall s i c s', qreach l s -> qstep i c s = Some s' -> qreach l s'.
End CQ.

Arguments OPush {V}. Arguments OPop {V}. Arguments OClear {V}. Arguments RUnit {V}. Arguments ROpt {V}.
Arguments PIdle {V}. Arguments PWant {V}. Arguments PIn {V}. Arguments PFront {V}. Arguments PClearing {V}. Arguments POut {V}.
Arguments EInv {V}. Arguments ELin {V}. Arguments ERes {V}.
Arguments mkq {V}. Arguments items {V}. Arguments owner {V}. Arguments pcs {V}. Arguments hist {V}.
Arguments set_pc {V}. Arguments initial {V}. Arguments qstep {V}. Arguments qreach {V}.
