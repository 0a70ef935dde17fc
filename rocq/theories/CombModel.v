(* Model of fdaPDE/utils/combinatorics.h: factorial, binomial coefficient, combinations<K,N>(). *)
From Verif Require Import Base.

(* ct_factorial (29).  Exact integers: int overflow (a compile-time error in a constant
   expression) is not modelled. *)
Fixpoint ct_factorial (n : nat) : nat := match n with 0 => 1 | S n' => n * ct_factorial n' end.
(* ct_binomial_coefficient (32-34), for M <= N *)
Definition ct_binomial (N M : nat) : nat := ct_factorial N / (ct_factorial M * ct_factorial (N - M)).

(* std::prev_permutation on a vector<bool>: the pivot is the rightmost position i with
   a[i] > a[i+1]; it is swapped with the rightmost smaller element after it and the tail is
   reversed.  [None] is the return value false (the loop at line 48 then ends). *)
Fixpoint set_last_false (l : list bool) : list bool :=
  match l with
  | [] => []
  | b :: l' => if negb b && forallb (fun c => c) l' then true :: l' else b :: set_last_false l'
  end.
Fixpoint prev_perm (l : list bool) : option (list bool) :=
  match l with
  | [] => None
  | x :: l' =>
      match prev_perm l' with
      | Some l'' => Some (x :: l'')
      | None => match x, l' with
                | true, false :: _ => Some (false :: rev (set_last_false l'))
                | _, _ => None
                end
      end
  end.

(* the inner loop (44-46): positions of the set bits *)
Fixpoint positions (i : nat) (mask : list bool) : list nat :=
  match mask with
  | [] => []
  | b :: m => if b then i :: positions (S i) m else positions (S i) m
  end.

(* the do-while loop (42-48); row j of the result must exist, and the row must have K entries *)
Fixpoint comb_loop (fuel rows K j : nat) (mask : list bool) : Res (list (list nat)) :=
  match fuel with
  | 0 => OutOfFuel
  | S f =>
      if (j <? rows) && (length (positions 0 mask) =? K) then
        match prev_perm mask with
        | Some mask' => rest <- comb_loop f rows K (S j) mask' ;; Ok (positions 0 mask :: rest)
        | None => Ok [positions 0 mask]
        end
      else UB
  end.
(* combinations<K, N>() (37-51) *)
Definition combinations (K N : nat) : Res (list (list nat)) :=
  comb_loop (S (ct_binomial N K)) (ct_binomial N K) K 0 (repeat true K ++ repeat false (N - K)).
