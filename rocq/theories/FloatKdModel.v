(* Model of fdaPDE/geometry/tree_search.h (TreeSearch) and of the parts of fdaPDE/geometry/kd_tree.h it uses, in IEEE 754 double
   arithmetic (rounding to nearest even); KdModel has the same functions over the rationals.  NaN and infinities are not excluded.
   [data i d] is data_(i, d). *)
From Coq Require Import List Bool Arith.
From Flocq Require Import Core IEEE754.BinarySingleNaN.
From Verif Require Import Base TreeModel SymbolsModel FloatModel FloatSplineModel.
From Verif Require Export KdModel.
Import ListNotations.
Open Scope nat_scope.

(* SVector<embed_dim> of tree_search.h:37 *)
Definition dvec := nat -> double.

Section FKd.
Variables (K : nat) (data : nat -> dvec).

(* the comparison lambda of kd_tree.h:65-67 *)
Definition f_kd_less (p : nat) (depth : nat) (node : nat) : bool :=
  dlt (data p (depth mod K)) (data node (depth mod K)).

(* kd_tree.h:43-76, the construction loop 59-75, as KdModel.build_loop: std::nth_element is left arbitrary *)
Fixpoint f_build_loop (nth_element : nat -> nat -> nat -> nat -> list nat -> list nat) (fuel : nat)
    (h : heap nat) (o : tree) (ids : list nat) (split_dim : nat) (stack : list point_set)
    : Res (heap nat * tree) :=
  match stack with
  | [] => Ok (h, o)
  | ps :: stack0 =>
      match fuel with
      | 0 => OutOfFuel
      | S f =>
          let median := psb ps + (pse ps - psb ps) / 2 in
          let ids' := nth_element (psb ps) median (pse ps) (psdim ps) ids in
          x <- nth_res ids' median ;;
          r <- push f_kd_less h (length ids) o x ;;
          let split_dim' := (split_dim + 1) mod K in
          let stack1 := if 0 <? median - psb ps then PSet (psb ps) median split_dim' :: stack0 else stack0 in
          let stack2 := if 0 <? pse ps - (median + 1) then PSet (median + 1) (pse ps) split_dim' :: stack1 else stack1 in
          f_build_loop nth_element f (fst (fst r)) (snd (fst r)) ids' split_dim' stack2
      end
  end.
(* kd_tree.h:43-58: n = data_.rows() *)
Definition f_kd_build (nth_element : nat -> nat -> nat -> nat -> list nat -> list nat) (n : nat) (h : heap nat)
  : Res (heap nat * tree) :=
  f_build_loop nth_element (S n) h empty_tree (seq 0 n) 0 [PSet 0 n 0].

(* kd_tree.h:132-137 contained *)
Fixpoint f_contained_from (k d : nat) (ll ur p : dvec) : bool :=
  match k with
  | 0 => true
  | S k' => if dlt (ur d) (p d) || dlt (p d) (ll d) then false else f_contained_from k' (S d) ll ur p
  end.
(* kd_tree.h:132-137 *)
Definition f_contained (ll ur p : dvec) : bool := f_contained_from K 0 ll ur p.

(* kd_tree.h:125-150 range_search *)
Fixpoint f_range_loop (h : heap nat) (ll ur : dvec) (fuel : nat) (stack : list (option addr)) (result : list nat)
  : Res (list nat) :=
  match stack with
  | [] => Ok result
  | it :: stack0 =>
      match fuel with
      | 0 => OutOfFuel
      | S f =>
          n <- deref h it ;;
          let p := data (ndata n) in
          let d := ndepth n mod K in
          let result' := if f_contained ll ur p then set_insert (ndata n) result else result in
          let stack1 := match nleft n with
                        | Some a => if dle (ll d) (p d) then Some a :: stack0 else stack0
                        | None => stack0 end in
          let stack2 := match nright n with
                        | Some a => if dle (p d) (ur d) then Some a :: stack1 else stack1
                        | None => stack1 end in
          f_range_loop h ll ur f stack2 result'
      end
  end.
(* kd_tree.h:125-150 *)
Definition f_range_search (h : heap nat) (o : tree) (fuel : nat) (ll ur : dvec) : Res (list nat) :=
  f_range_loop h ll ur fuel [root o] [].
End FKd.

(* minCoeff and maxCoeff of the coordinates [simplex.h:62-64, triangulation.h:54-55], for finite coefficients *)
Fixpoint f_fold_min (x : double) (l : list double) : double := match l with [] => x | y :: l' => f_fold_min (if dlt y x then y else x) l' end.
Fixpoint f_fold_max (x : double) (l : list double) : double := match l with [] => x | y :: l' => f_fold_max (if dlt x y then y else x) l' end.
(* simplex.h:62-64 bounding_box; triangulation.h:54-55 range_ *)
Definition f_bounding_box (v0 : dvec) (vs : list dvec) : dvec * dvec :=
  (fun d => f_fold_min (v0 d) (map (fun v : dvec => v d) vs), fun d => f_fold_max (v0 d) (map (fun v : dvec => v d) vs)).

Section FSearch.
Variables (N : nat) (lo hi : dvec)                            (* mesh range(): its two rows *)
  (boxes : list (dvec * dvec))                                (* the bounding boxes of the cells *)
  (contains : nat -> dvec -> bool).                           (* cell(i).contains(p) != OUTSIDE *)

(* tree_search.h:50 c_ *)
Definition f_c (d : nat) : double := ddiv d1 (dsub (hi d) (lo d)).
(* tree_search.h:37, 55, 56 *)
Definition f_scale (p : dvec) : dvec := fun d => dmul (dsub (p d) (lo d)) (f_c d).
(* tree_search.h:54-57: the row of a cell; the last line never reads past the rows, as the indices come from [seq 0 n] *)
Definition f_row (box : dvec * dvec) : dvec := fun d => if d <? N then f_scale (fst box) d else f_scale (snd box) (d - N).
Definition f_ts_data (i : nat) : dvec := nth i (map f_row boxes) (fun _ => d0).
(* tree_search.h:37-42 query *)
Definition f_query_ll (p : dvec) : dvec := fun d => if d <? N then d0 else f_scale p (d - N).
Definition f_query_ur (p : dvec) : dvec := fun d => if d <? N then f_scale p d else d1.
(* tree_search.h:45-61: the constructor *)
Definition f_ts_build nth_element h := f_kd_build (2 * N) f_ts_data nth_element (length boxes) h.
(* range_search(query(p)) [tree_search.h:67, 78] *)
Definition f_ts_query h o fuel p : Res (list nat) := f_range_search (2 * N) f_ts_data h o fuel (f_query_ll p) (f_query_ur p).
(* tree_search.h:65-72 all_locate, [ids] the elements of the unordered_set in iteration order *)
Definition f_all_locate (ids : list nat) (p : dvec) : list nat := filter (fun id => contains id p) ids.
(* tree_search.h:75-84 locate, None is -1 *)
Definition f_ts_locate (ids : list nat) (p : dvec) : option nat := List.find (fun id => contains id p) ids.
End FSearch.
