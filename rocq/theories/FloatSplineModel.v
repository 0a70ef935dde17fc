(* Model in IEEE 754 double arithmetic (as FloatModel) of the evaluation of B-splines: splines/basis/spline.h:38-80 and
   splines/basis/spline_basis.h:38-80.  A read outside of a vector is undefined behaviour. *)
From Coq Require Import List Bool.
From Flocq Require Import Core IEEE754.BinarySingleNaN.
From Verif Require Import Base SymbolsModel FloatModel.
Import ListNotations.

Definition d1 : double := @Bone 53 1024 prec64 emax64.
Definition ddiv (a b : double) : double := @Bdiv 53 1024 prec64 emax64 mode_NE a b.
Definition dle (a b : double) : bool := Bleb a b.
Definition deq (a b : double) : bool := Beqb a b.
(* Spline<0, M>::tol_ = 50 * epsilon, spline.h:70 *)
Definition dtol : double := @binary_normalize 53 1024 prec64 emax64 mode_NE 50 (-52) false.

(* Spline<0, M>::operator(), spline.h:77-80 *)
Definition f_spline0 (M : nat) (knots : list double) (i : nat) (x : double) : Res double :=
  u <- nth_res knots i ;;
  v <- nth_res knots (S i) ;;
  l <- nth_res knots (length knots - 1) ;;
  Ok (if (dle u x && dlt x v) || (dlt (dabs (dsub x l)) dtol && (i + M + 2 =? length knots)%nat) then d1 else d0).
(* spline.h:43-47: a_ = f_recip R i, b_ = f_recip R (i + 1) *)
Definition f_recip (knots : list double) (r i : nat) : Res double :=
  u <- nth_res knots i ;; v <- nth_res knots (i + r) ;; Ok (if deq (dsub v u) d0 then d0 else ddiv d1 (dsub v u)).
(* Spline<R, M>::operator(), spline.h:49-52 *)
Fixpoint f_spline (M : nat) (knots : list double) (r i : nat) (x : double) : Res double :=
  match r with
  | O => f_spline0 M knots i x
  | S r' =>
      a <- f_recip knots r i ;;
      b <- f_recip knots r (i + 1) ;;
      u <- nth_res knots i ;;
      v <- nth_res knots (i + r + 1) ;;
      p <- f_spline M knots r' i x ;;
      q <- f_spline M knots r' (i + 1) x ;;
      Ok (dadd (dmul (dmul a (dsub x u)) p) (dmul (dmul b (dsub v x)) q))
  end.
(* SplineBasis(knots), spline_basis.h:38-53 *)
Definition f_pad_knots (r : nat) (knots : list double) : Res (list double) :=
  let n := length knots in
  mapM (fun i => if (i <? r)%nat then nth_res knots 0
                 else if (i <? n + r)%nat then nth_res knots (i - r)
                 else nth_res knots (n - 1)) (seq 0 (n + 2 * r)).
(* operator()(c, locs), spline_basis.h:71-80 *)
Definition f_expansion (r : nat) (knots c locs : list double) : Res (list double) :=
  _ <- assert_ (length c =? length knots - r - 1)%nat ;;
  mapM (fun x => foldM (fun s h => w <- nth_res c h ;; v <- f_spline r knots r h x ;; Ok (dadd s (dmul w v))) (seq 0 (length knots - r - 1)) d0) locs.
