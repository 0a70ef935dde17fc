(* Model of the numeric helpers and of the factorisation wrapper of fdaPDE/utils/symbols.h. *)
From Coq Require Import Reals List Bool.
From Flocq Require Import Core IEEE754.BinarySingleNaN.
From Verif Require Import Base.
Import ListNotations.

(* doubles: IEEE 754 binary64, rounding to nearest even; the payload of a NaN is not observable here *)
Definition prec64 : (0 < 53)%Z := eq_refl.
Definition emax64 : (53 < 1024)%Z := eq_refl.
Definition double := binary_float 53 1024.
Definition dsub (a b : double) : double := @Bminus 53 1024 prec64 emax64 mode_NE a b.
Definition dmul (a b : double) : double := @Bmult 53 1024 prec64 emax64 mode_NE a b.
Definition dabs (a : double) : double := Babs a.
Definition dlt (a b : double) : bool := Bltb a b.

(* symbols.h:163-167 almost_equal<double> *)
Definition almost_equal (a b epsilon : double) : bool :=
  dlt (dabs (dsub a b)) epsilon ||
  dlt (dabs (dsub a b)) (dmul (if dlt (dabs a) (dabs b) then dabs b else dabs a) epsilon).

(* symbols.h:177-182 log1pexp, on reals: std::exp and std::log1p are taken as exact *)
Definition log1pexp (x : R) : R :=
  if Rle_dec x (-37) then exp x
  else if Rle_dec x 18 then ln (1 + exp x)
  else if Rlt_dec (333 / 10) x then x
  else (x + exp (- x))%R.

(* symbols.h:131-157 SparseLU.  M: matrices, V: right-hand sides; factors m: Eigen factorises m; lu_solve: the result of
   Eigen's solve.  An Eigen solver is the last matrix it was given; the wrapper holds a shared pointer to one. *)
Section Lu.
Variables (M V : Type) (factors : M -> bool) (lu_solve : M -> V -> V).
Record wrapper := Wrapper { w_ptr : option nat; w_computed : bool }.
Record lu_state := Lu { heap : list M; wrappers : list wrapper }.
Inductive lu_op :=
| New                       (* SparseLU() *)
| Copy (w : nat)            (* copy construction *)
| Compute (w : nat) (m : M) (* 141-145 compute *)
| Arrow (w : nat) (m : M).  (* 155, w->compute(m) *)
Definition lu_step (s : lu_state) (o : lu_op) : Res lu_state :=
  match o with
  | New => Ok (Lu (heap s) (wrappers s ++ [Wrapper None false]))
  | Copy w => x <- nth_res (wrappers s) w ;; Ok (Lu (heap s) (wrappers s ++ [x]))
  | Compute w m =>
      x <- nth_res (wrappers s) w ;;
      ws <- upd_res (wrappers s) w (Wrapper (Some (length (heap s))) (if factors m then true else w_computed x)) ;;
      Ok (Lu (heap s ++ [m]) ws)
  | Arrow w m =>
      x <- nth_res (wrappers s) w ;;
      match w_ptr x with None => UB | Some p => h <- upd_res (heap s) p m ;; Ok (Lu h (wrappers s)) end
  end.
Definition lu_run (ops : list lu_op) : Res lu_state := foldM lu_step ops (Lu [] []).
(* 147-154 solve: Eigen asserts that the factorisation succeeded *)
Definition lu_apply (s : lu_state) (w : nat) (b : V) : Res V :=
  x <- nth_res (wrappers s) w ;;
  match w_ptr x with
  | None => UB
  | Some p => m <- nth_res (heap s) p ;; _ <- assert_ (factors m) ;; Ok (lu_solve m b)
  end.
(* 157 operator bool *)
Definition lu_bool (s : lu_state) (w : nat) : Res bool := x <- nth_res (wrappers s) w ;; Ok (w_computed x).
End Lu.
