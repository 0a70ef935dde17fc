(* Specification vocabulary for KdModel. *)
From Coq Require Import Permutation.
From Verif Require Import Base TreeModel KdModel TreeSpec.

(* what the C++ standard promises about std::nth_element on [b, e) as far as it matters here: the
   array is rearranged inside [b, e) only *)
Definition rearranges (nth_element : nat -> nat -> nat -> nat -> list nat -> list nat) : Prop :=
  forall b m e dim ids, b <= m < e -> e <= length ids ->
    Permutation (nth_element b m e dim ids) ids /\
    firstn b (nth_element b m e dim ids) = firstn b ids /\
    skipn e (nth_element b m e dim ids) = skipn e ids.

(* x lies in the closed box [ll, ur] of R^K *)
Definition in_box (K : nat) (ll ur x : point) : Prop := forall d, d < K -> (ll d <= x d)%Q /\ (x d <= ur d)%Q.
(* x and y are the same point of R^K *)
Definition same_point (K : nat) (x y : point) : Prop := forall d, d < K -> (x d == y d)%Q.

(* the points met when descending the tree towards p, from the root at depth d to a leaf; None if the
   side of p is missing at a node that has the other child *)
Fixpoint descent (K : nat) (data : nat -> point) (p : point) (d : nat) (t : mtree nat) : option (list nat) :=
  match t with
  | MLeaf => None
  | MNode _ x MLeaf MLeaf => Some [x]
  | MNode _ x l r =>
      option_map (cons x) (descent K data p (S d) (if qlt (p (d mod K)) (data x (d mod K)) then l else r))
  end.

(* the rest of the promise of std::nth_element: the element at m is where sorting would put it *)
Definition partitions (data : nat -> point) (nth_element : nat -> nat -> nat -> nat -> list nat -> list nat) : Prop :=
  forall b m e dim ids x, b <= m < e -> e <= length ids -> nth_error (nth_element b m e dim ids) m = Some x ->
    (forall i y, b <= i <= m -> nth_error (nth_element b m e dim ids) i = Some y -> (data y dim <= data x dim)%Q) /\
    (forall i y, m <= i < e -> nth_error (nth_element b m e dim ids) i = Some y -> (data x dim <= data y dim)%Q).

(* ---- meshes, for TreeSearch: node coordinates and, for each cell, its vertices (first one apart) *)
Definition qsum (l : list Q) : Q := fold_right Qplus 0%Q l.
(* p is a convex combination of the vertices v0 :: vs in R^N *)
Definition in_hull (N : nat) (v0 : point) (vs : list point) (p : point) : Prop :=
  exists w0 ws, length ws = length vs /\ (0 <= w0)%Q /\ Forall (fun w => (0 <= w)%Q) ws /\ (w0 + qsum ws == 1)%Q /\
    forall d, d < N -> (p d == w0 * v0 d + qsum (map (fun wv => fst wv * snd wv d)%Q (combine ws vs)))%Q.
