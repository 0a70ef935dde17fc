(* Model of fdaPDE/geometry/interval.h: Triangulation<1, 1>.  Coordinates are rationals. *)
From Coq Require Export QArith ZArith.
From Verif Require Export Base.
Open Scope nat_scope.

Definition q_lt (x y : Q) : bool := negb (Qle_bool y x).

(* interval.h:121-129: the members set by the constructor; neighbors_ as its two columns per row *)
Record interval := Interval { iv_nodes : list Q; iv_range : Q * Q; iv_cells : list (nat * nat);
                              iv_neigh : list (Z * Z); iv_markers : list bool; iv_nn : nat; iv_nc : nat }.

(* neighbors_(i, j) = v [interval.h:53-58] *)
Definition set_neigh (m : list (Z * Z)) (i j : nat) (v : Z) : Res (list (Z * Z)) :=
  r <- nth_res m i ;;
  match j with
  | 0 => upd_res m i (v, snd r)
  | 1 => upd_res m i (fst r, v)
  | _ => UB
  end.

(* interval.h:39-63 constructor.  With no nodes, n_cells_ is -1 and nodes_[0] is read out of range. *)
Definition interval_ctor (nodes : list Q) : Res interval :=
  let nn := length nodes in
  x0 <- nth_res nodes 0 ;;                                              (* 44 *)
  x1 <- nth_res nodes (nn - 1) ;;                                       (* 45 *)
  let nc := nn - 1 in
  let cells := map (fun i => (i, i + 1)) (seq 0 (nn - 1)) in            (* 47-51 *)
  let m0 := repeat (-1, -1)%Z nc in                                     (* 52 *)
  m1 <- set_neigh m0 0 1 1%Z ;;                                         (* 53 *)
  m2 <- foldM (fun m i => m' <- set_neigh m i 0 (Z.of_nat i - 1)%Z ;;
                          set_neigh m' i 1 (Z.of_nat i + 1)%Z) (seq 1 (nc - 1 - 1)) m1 ;;   (* 54-57 *)
  m3 <- (if nc =? 0 then UB else set_neigh m2 (nc - 1) 0 (Z.of_nat nc - 2)%Z) ;;            (* 58 *)
  k1 <- upd_res (repeat false nn) 0 true ;;                             (* 60-61 *)
  k2 <- upd_res k1 (nn - 1) true ;;                                     (* 62 *)
  Ok (Interval nodes (x0, x1) cells m3 k2 nn nc).

(* interval.h:70 *)
Definition is_node_on_boundary (t : interval) (id : nat) : bool := (id =? 0) || (id =? iv_nn t - 1).
(* boundary()[id], 74 *)
Definition boundary_marker (t : interval) (id : nat) : Res bool := nth_res (iv_markers t) id.

(* interval.h:108-121: the binary search loop *)
Fixpoint locate_loop (t : interval) (x : Q) (fuel h_min h_max : nat) : Res nat :=
  match fuel with
  | 0 => OutOfFuel
  | S f =>
      let j := h_min + (h_max - h_min) / 2 in
      xj <- nth_res (iv_nodes t) j ;;
      hit <- (if Qle_bool xj x then xj1 <- nth_res (iv_nodes t) (j + 1) ;; Ok (q_lt x xj1) else Ok false) ;;
      if (hit : bool) then Ok j
      else if q_lt x xj then locate_loop t x f h_min j else locate_loop t x f j h_max
  end.
(* interval.h:103-107 *)
Definition locate_point (t : interval) (fuel : nat) (x : Q) : Res Z :=
  if q_lt x (fst (iv_range t)) || q_lt (snd (iv_range t)) x then Ok (-1)%Z
  else j <- locate_loop t x fuel 0 (iv_nn t) ;; Ok (Z.of_nat j).
(* interval.h:98-125 *)
Definition interval_locate (t : interval) (fuel : nat) (points : list Q) : Res (list Z) :=
  mapM (locate_point t fuel) points.
