(* Model of fdaPDE/geometry/walk_search.h (BarycentricWalk). *)
From Verif Require Export SimplexModel.

Section Walk.
Variables (d ncells : nat).
Variable c : nat -> nat -> vec.              (* vertices of each cell *)
Variable inv : nat -> nat -> nat -> R.       (* invJ_ of each cell *)
Variable neigh : nat -> nat -> option nat.   (* neighbors() of each cell; None is the -1 of a boundary facet *)
Variable eps : R.                            (* machine_epsilon *)
Variable p : vec.                            (* the query point *)

(* 45: cell(next).contains(p) as a bool (OUTSIDE is 0) *)
Definition holds (k : nat) : bool :=
  match contains d d (c k) (inv k) eps false p with OUTSIDE => false | _ => true end.
(* 51: minCoeff(&index), first index of the smallest coefficient *)
Fixpoint argmin (f : nat -> R) (n : nat) : nat :=
  match n with
  | O => O
  | S m => let b := argmin f m in if ltb (f n) (f b) then n else b
  end.
(* 45-55; moving to -1 (converted to size_t) and building that cell reads out of bounds *)
Fixpoint walk (fuel : nat) (visited : list nat) (next : nat) : Res nat :=
  match fuel with
  | O => OutOfFuel
  | S fuel' =>
      if negb (holds next) || existsb (Nat.eqb next) visited then
        match neigh next (argmin (bary d d (c next) (inv next) p) d) with
        | None => UB
        | Some k => walk fuel' (next :: visited) k
        end
      else Ok next
  end.
(* 38-42: the start is any cell (random); ncells = 0 makes the distribution's range invalid *)
Definition locate (fuel start : nat) : Res nat := if Nat.ltb start ncells then walk fuel [] start else UB.
End Walk.
