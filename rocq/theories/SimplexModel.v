(* Model of fdaPDE/geometry/simplex.h and fdaPDE/geometry/hyperplane.h.
   double is R.  A vector is a function nat -> R read at 0 .. N-1, a matrix a function nat -> nat -> R.
   Eigen's inverse() is not modelled: invJ (or the inverse of J^T J) is a parameter, and the theorems
   assume of it what Eigen documents for an invertible argument. *)
From Verif Require Export Base RSum.

Definition vec := nat -> R.
Definition dot (N : nat) (a b : vec) : R := rsum N (fun i => a i * b i).
Definition vsub (a b : vec) : vec := fun i => a i - b i.
Definition vadd (a b : vec) : vec := fun i => a i + b i.
Definition vscale (k : R) (a : vec) : vec := fun i => k * a i.
Definition norm (N : nat) (a : vec) : R := sqrt (dot N a a).

(* ---- simplex.h ---- *)
Section Simplex.
Variables (d N : nat).          (* local_dim, embed_dim *)
Variable c : nat -> vec.        (* coords_.col(i), i = 0 .. d *)
(* 185: J_.col(k) = coords_.col(k + 1) - coords_.col(0); argument order (row, column) *)
Definition jac (r k : nat) : R := c (S k) r - c 0%nat r.
(* 190: (J^T J)^-1 J^T, G standing for (J^T J).inverse() *)
Definition gram (a b : nat) : R := rsum N (fun r => jac r a * jac r b).
Definition pinv (G : nat -> nat -> R) (k r : nat) : R := rsum d (fun b => G k b * jac r b).

Variable invJ : nat -> nat -> R.   (* invJ_: d rows, N columns *)
(* 70-75 barycentric_coords *)
Definition bary_tail (p : vec) (k : nat) : R := rsum N (fun r => invJ k r * (p r - c 0%nat r)).
Definition bary (p : vec) (i : nat) : R :=
  match i with O => 1 - rsum d (bary_tail p) | S k => bary_tail p k end.
(* 66-68 barycenter *)
Definition barycenter (r : nat) : R := rsum d (fun k => jac r k * (1 / INR (d + 1))) + c 0%nat r.
(* 88-99 circumcenter of a full-dimensional simplex; Minv stands for M.inverse(), M(i, r) = jac r i *)
Definition circum_rhs (i : nat) : R := dot N (c (S i)) (c (S i)) - dot N (c 0%nat) (c 0%nat).
Definition circumcenter (Minv : nat -> nat -> R) (r : nat) : R := rsum N (fun i => 1 / 2 * Minv r i * circum_rhs i).

(* 114-128 contains; far: the manifold test `supporting_plane().distance(x) > machine_epsilon`
   (always false when local_dim = embed_dim); eps: machine_epsilon *)
Inductive where_ := OUTSIDE | INSIDE | ON_FACE | ON_VERTEX.
Definition ltb (a b : R) : bool := if Rlt_dec a b then true else false.
Definition count_if (f : nat -> bool) (n : nat) : nat := length (filter f (seq 0 n)).
Definition contains (eps : R) (far : bool) (p : vec) : where_ :=
  if far then OUTSIDE
  else if existsb (fun i => ltb (bary p i) (- eps)) (seq 0 (d + 1)) then OUTSIDE
  else
    let nonzeros := count_if (fun i => ltb eps (bary p i)) (d + 1) in
    if Nat.eqb nonzeros 1 then ON_VERTEX
    else if Nat.eqb nonzeros d then ON_FACE
    else INSIDE.
End Simplex.

(* 80-87 circumcenter of a triangle in space: coordinates 0, 1, 2 of the cross product and the formula *)
Definition cross (a b : vec) : vec := fun i =>
  match i with
  | O => a 1%nat * b 2%nat - a 2%nat * b 1%nat
  | S O => a 2%nat * b 0%nat - a 0%nat * b 2%nat
  | _ => a 0%nat * b 1%nat - a 1%nat * b 0%nat
  end.
Definition circumcenter_tri3 (c0 c1 c2 : vec) : vec :=
  let a := vsub c1 c0 in let b := vsub c2 c0 in let ab := cross a b in
  fun i => c0 i + (cross ab a i * dot 3 b b + cross b ab i * dot 3 a a) / (2 * dot 3 ab ab).

(* 157-181 nearest, as a recursion on Order.  vs: the vertices; inside vs: the test of lines 160-166 on the
   simplex vs; q0neg: `q[0] < 0` on a segment; by_distance: the vertices sorted by distance from p
   (std::sort on the distances, ties in any order), of which all but the last are kept. *)
Section Nearest.
Variables (point : Type) (inside : list point -> bool) (q0neg : list point -> bool)
          (by_distance : list point -> list point) (p : point).
Fixpoint nearest (order : nat) (vs : list point) : Res point :=
  if inside vs then Ok p
  else match order with
       | O => UB                      (* Order_ >= 1 *)
       | 1%nat => if q0neg vs then nth_res vs 1 else nth_res vs 0
       | S o => nearest o (removelast (by_distance vs))
       end.
End Nearest.

(* ---- hyperplane.h ---- *)
(* Eigen's normalized(): v / norm for a non-zero v [hyperplane.h:49, 58-60] *)
Definition normalized (N : nat) (v : vec) : vec := vscale (/ norm N v) v.
(* 29-31 orthogonal_project *)
Definition orthogonal_project (N : nat) (v u : vec) : vec := vscale (dot N v u / dot N u u) u.
Record hyperplane := Hyperplane { hp_basis : nat -> vec; hp_normal : vec; hp_offset : R; hp_p : vec }.
(* 46-54: line through two points.  normal_.normalized() returns a copy that is dropped. *)
Definition line_normal (tmp : vec) : vec := fun i =>
  match i with O => - tmp 0%nat | S O => tmp 1%nat | _ => 0 end.
Definition hp_line (N : nat) (x1 x2 : vec) : hyperplane :=
  let tmp := vsub x2 x1 in
  Hyperplane (fun _ => normalized N tmp) (line_normal tmp) (- dot N x1 (line_normal tmp)) x1.
(* 56-62: plane through three points of space *)
Definition hp_plane (x1 x2 x3 : vec) : hyperplane :=
  let b0 := normalized 3 (vsub x2 x1) in
  let b1 := normalized 3 (vsub (vsub x3 x1) (orthogonal_project 3 (vsub x3 x1) b0)) in
  let n := normalized 3 (cross (vsub x2 x1) (vsub x3 x1)) in
  Hyperplane (fun k => match k with O => b0 | _ => b1 end) n (- dot 3 x1 n) x1.
(* 68-80: modified Gram-Schmidt on the columns; the normal (kernel of an LU decomposition) is not modelled *)
Definition mgs_column (N : nat) (done : list vec) (v : vec) : vec :=
  fold_left (fun w b => vsub w (orthogonal_project N w b)) done v.
Fixpoint mgs (N : nat) (done : list vec) (cols : list vec) : list vec :=
  match cols with
  | [] => done
  | v :: cols' => let w := mgs_column N done v in mgs N (done ++ [vscale (/ norm N w) w]) cols'
  end.

(* 82-91 project_onto; 92-98 project; 99 distance; 100 eval; 101-105 operator() *)
Definition hp_project_onto (N : nat) (h : hyperplane) (x : vec) (k : nat) : R := dot N (vsub x (hp_p h)) (hp_basis h k).
Definition hp_project (M N : nat) (h : hyperplane) (x : vec) : vec := fun r =>
  rsum N (fun s => rsum M (fun k => hp_basis h k r * hp_basis h k s) * (x s - hp_p h s)) + hp_p h r.
Definition hp_distance (M N : nat) (h : hyperplane) (x : vec) : R := norm N (vsub x (hp_project M N h x)).
Definition hp_eval (N : nat) (h : hyperplane) (x : vec) : R := dot N (hp_normal h) x + hp_offset h.
Definition hp_point (M : nat) (h : hyperplane) (coeffs : nat -> R) : vec := fun r =>
  hp_p h r + rsum M (fun k => coeffs k * hp_basis h k r).

(* project.h 34-48, one point: the loop over the cells.  cand: nearest point of each cell and its distance;
   huge: numeric_limits<double>::max(); None: the row was never written *)
Fixpoint project_loop {A} (cands : list (A * R)) (best : R) (cur : option A) : option A :=
  match cands with
  | [] => cur
  | (a, dist) :: rest => if ltb dist best then project_loop rest dist (Some a) else project_loop rest best cur
  end.

(* utils.h 48-67 clockwise_order *)
Definition leb_ (a b : R) : bool := if Rle_dec a b then true else false.
Definition eqb_ (a b : R) : bool := if Req_EM_T a b then true else false.
Definition clockwise (c a b : R * R) : bool :=
  let ax := fst a - fst c in let ay := snd a - snd c in
  let bx := fst b - fst c in let by_ := snd b - snd c in
  if leb_ 0 ax && ltb bx 0 then true
  else if leb_ 0 bx && ltb ax 0 then false
  else if eqb_ ax 0 && eqb_ bx 0 then
    (if leb_ 0 ay || leb_ 0 by_ then ltb (snd b) (snd a) else ltb (snd a) (snd b))
  else
    let s := ax * by_ - bx * ay in
    if ltb s 0 then true
    else if ltb 0 s then false
    else ltb (bx * bx + by_ * by_) (ax * ax + ay * ay).
