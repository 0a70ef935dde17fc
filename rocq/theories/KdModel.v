(* Model of fdaPDE/geometry/kd_tree.h (KDTree<K>) and fdaPDE/geometry/tree_search.h (TreeSearch) on
   top of the heap model of BinaryTree.  Coordinates are rationals: every finite double is one, but
   the arithmetic on them is exact here (a simplification), and NaN and infinities are excluded.
   [data i d] is data_(i, d); every index stored in the tree is below the number of rows
   (kd_build_spec) and every direction is taken modulo K, so no read leaves the matrix. *)
From Coq Require Export QArith.
From Verif Require Export Base TreeModel.
Open Scope nat_scope.

(* DVector<double> of kd_tree.h:82 *)
Definition point := nat -> Q.
(* < of kd_tree.h:66, 69 *)
Definition qlt (x y : Q) : bool := negb (Qle_bool y x).
(* <= of kd_tree.h:134, 146-147 *)
Definition qle (x y : Q) : bool := Qle_bool x y.

Section Kd.
Variables (K : nat) (data : nat -> point).

(* the comparison lambda of kd_tree.h:65-67 *)
Definition kd_less (p : nat) (depth : nat) (node : nat) : bool :=
  qlt (data p (depth mod K)) (data node (depth mod K)).

(* kd_tree.h:49-55 point_set_t *)
Record point_set := PSet { psb : nat; pse : nat; psdim : nat }.

(* kd_tree.h:43-76, the construction loop 59-75.  [nth_element b m e dim ids] is the array after
   std::nth_element(it+b, it+m, it+e, less along dim), an external function left arbitrary. *)
Fixpoint build_loop (nth_element : nat -> nat -> nat -> nat -> list nat -> list nat) (fuel : nat)
    (h : heap nat) (o : tree) (ids : list nat) (split_dim : nat) (stack : list point_set)
    : Res (heap nat * tree) :=
  match stack with
  | [] => Ok (h, o)
  | ps :: stack0 =>
      match fuel with
      | 0 => OutOfFuel
      | S f =>
          let median := psb ps + (pse ps - psb ps) / 2 in
          let ids' := nth_element (psb ps) median (pse ps) (psdim ps) ids in
          x <- nth_res ids' median ;;                                   (* *(it + median) *)
          r <- push kd_less h (length ids) o x ;;
          let split_dim' := (split_dim + 1) mod K in
          let stack1 := if 0 <? median - psb ps then PSet (psb ps) median split_dim' :: stack0 else stack0 in
          let stack2 := if 0 <? pse ps - (median + 1) then PSet (median + 1) (pse ps) split_dim' :: stack1 else stack1 in
          build_loop nth_element f (fst (fst r)) (snd (fst r)) ids' split_dim' stack2
      end
  end.
(* kd_tree.h:43-58: n = data_.rows(); the assertion on the number of columns is the type of [data] *)
Definition kd_build (nth_element : nat -> nat -> nat -> nat -> list nat -> list nat) (n : nat) (h : heap nat)
  : Res (heap nat * tree) :=
  build_loop nth_element (S n) h empty_tree (seq 0 n) 0 [PSet 0 n 0].

(* kd_tree.h:120-123 RangeType, 132-137 contained *)
Fixpoint contained_from (k d : nat) (ll ur p : point) : bool :=
  match k with
  | 0 => true
  | S k' => if qlt (ur d) (p d) || qlt (p d) (ll d) then false else contained_from k' (S d) ll ur p
  end.
Definition contained (ll ur p : point) : bool := contained_from K 0 ll ur p.
(* std::unordered_set::insert; the order of the list carries no meaning [kd_tree.h:144] *)
Definition set_insert (x : nat) (s : list nat) : list nat := if existsb (Nat.eqb x) s then s else x :: s.

(* kd_tree.h:125-150 range_search *)
Fixpoint range_loop (h : heap nat) (ll ur : point) (fuel : nat) (stack : list (option addr)) (result : list nat)
  : Res (list nat) :=
  match stack with
  | [] => Ok result
  | it :: stack0 =>
      match fuel with
      | 0 => OutOfFuel
      | S f =>
          n <- deref h it ;;
          let p := data (ndata n) in
          let d := ndepth n mod K in
          let result' := if contained ll ur p then set_insert (ndata n) result else result in
          let stack1 := match nleft n with
                        | Some a => if qle (ll d) (p d) then Some a :: stack0 else stack0
                        | None => stack0 end in
          let stack2 := match nright n with
                        | Some a => if qle (p d) (ur d) then Some a :: stack1 else stack1
                        | None => stack1 end in
          range_loop h ll ur f stack2 result'
      end
  end.
(* kd_tree.h:125-150 *)
Definition range_search (h : heap nat) (o : tree) (fuel : nat) (ll ur : point) : Res (list nat) :=
  range_loop h ll ur fuel [root o] [].

(* (data.row(i) - p).squaredNorm() [kd_tree.h:105] *)
Definition sqdist (x p : point) : Q :=
  fold_right (fun d s => ((x d - p d) * (x d - p d) + s)%Q) 0%Q (seq 0 K).

(* kd_tree.h:88-96 walk_down: the stack has its top first *)
Fixpoint walk_down (h : heap nat) (p : point) (fuel : nat) (it : option addr) (stack : list addr) : Res (list addr) :=
  match fuel with
  | 0 => OutOfFuel
  | S f =>
      n <- deref h it ;;                       (* it.l_child(), it.r_child() *)
      match it with
      | None => UB
      | Some a =>
          match nleft n, nright n with
          | None, None => Ok (a :: stack)
          | _, _ => walk_down h p f (if qlt (p (ndepth n mod K)) (data (ndata n) (ndepth n mod K)) then nleft n else nright n)
                      (a :: stack)
          end
      end
  end.
(* kd_tree.h:88-98 *)
Definition walk (h : heap nat) (p : point) (fuel : nat) (start : option addr) (stack : list addr) : Res (list addr) :=
  match start with None => Ok stack | Some _ => walk_down h p fuel start stack end.   (* 89 *)

(* kd_tree.h:102-117; best_dist = None is +infinity *)
Definition dist_lt (x : Q) (best : option (addr * Q)) : bool :=
  match best with None => true | Some (_, b) => qlt x b end.
Fixpoint unwind (h : heap nat) (p : point) (wfuel fuel : nat) (stack : list addr) (best : option (addr * Q))
  : Res (option addr) :=
  match stack with
  | [] => Ok (option_map fst best)
  | curr :: stack0 =>
      match fuel with
      | 0 => OutOfFuel
      | S f =>
          n <- deref h (Some curr) ;;
          let dist := sqdist (data (ndata n)) p in
          let upd := dist_lt dist best in
          let best' := if upd then Some (curr, dist) else best in
          if upd && Qeq_bool dist 0 then Ok (Some curr) else
          let r := (data (ndata n) (ndepth n mod K) - p (ndepth n mod K))%Q in
          stack1 <- (if dist_lt (r * r) best' then walk h p wfuel (if qlt 0 r then nleft n else nright n) stack0
                     else Ok stack0) ;;
          unwind h p wfuel f stack1 best'
      end
  end.
(* kd_tree.h:82-118 nn_search, the returned iterator read through operator* (None is the end iterator) *)
Definition nn_search (h : heap nat) (o : tree) (wfuel fuel : nat) (p : point) : Res (option nat) :=
  if is_empty o then Ok None else
  stack <- walk h p wfuel (root o) [] ;;
  b <- unwind h p wfuel fuel stack None ;;
  match b with
  | None => Ok None
  | Some a => n <- deref h (Some a) ;; Ok (Some (ndata n))
  end.
End Kd.

(* ---- TreeSearch ------------------------------------------------------------------------- *)
Section Search.
Variables (N : nat) (n_cells : nat) (lo hi : point)          (* mesh range(): its two rows *)
  (box : nat -> point * point)                                (* cell(i).bounding_box() *)
  (contains : nat -> point -> bool).                          (* cell(i).contains(p) != OUTSIDE *)

(* tree_search.h:53 c_, division by zero excluded by the hypotheses of the theorems *)
Definition scale (p : point) : point := fun d => ((p d - lo d) * (1 / (hi d - lo d)))%Q.
(* tree_search.h:57-61: row i of data *)
Definition ts_data (i : nat) : point := fun d => if d <? N then scale (fst (box i)) d else scale (snd (box i)) (d - N).
(* tree_search.h:37-43 query *)
Definition query_ll (p : point) : point := fun d => if d <? N then 0%Q else scale p (d - N).
Definition query_ur (p : point) : point := fun d => if d <? N then scale p d else 1%Q.

(* tree_search.h:48-64: the constructor; the move assignment of tree_ transfers the tree (TreeProps) *)
Definition ts_build nth_element h := kd_build (2 * N) ts_data nth_element n_cells h.
(* range_search(query(p)) [tree_search.h:64, 73] *)
Definition ts_query h o fuel p : Res (list nat) := range_search (2 * N) ts_data h o fuel (query_ll p) (query_ur p).
(* tree_search.h:66-73 all_locate, [ids] the elements of the unordered_set in iteration order *)
Definition all_locate (ids : list nat) (p : point) : list nat := filter (fun id => contains id p) ids.
(* tree_search.h:75-82 locate, None is -1 *)
Definition ts_locate (ids : list nat) (p : point) : option nat := List.find (fun id => contains id p) ids.
End Search.

(* simplex.h:61-63 bounding_box: coefficient-wise min and max over the vertices *)
Fixpoint fold_min (x : Q) (l : list Q) : Q := match l with [] => x | y :: l' => fold_min (if qlt y x then y else x) l' end.
Fixpoint fold_max (x : Q) (l : list Q) : Q := match l with [] => x | y :: l' => fold_max (if qlt x y then y else x) l' end.
Definition bounding_box (v0 : point) (vs : list point) : point * point :=
  (fun d => fold_min (v0 d) (map (fun v : point => v d) vs), fun d => fold_max (v0 d) (map (fun v : point => v d) vs)).
