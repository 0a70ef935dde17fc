(* Property C33: Sherman-Morrison-Woodbury solver, fdaPDE/linear_algebra/smw.h.
   Matrices are mathcomp matrices over an arbitrary field; the sparse and dense factorisations
   (Eigen) are arguments, their exactness a hypothesis of the theorem. *)
From mathcomp Require Import all_ssreflect all_algebra.
Set Implicit Arguments.
Unset Strict Implicit.
Unset Printing Implicit Defensive.
Import GRing.Theory.
Local Open Scope ring_scope.

Section Smw.
Variables (F : fieldType) (n q k : nat).

(* smw.h:45-59 solve.  invA.solve and DenseSolver::solve are called with several widths. *)
Definition smw_solve (solveA : forall w, 'M[F]_(n, w) -> 'M[F]_(n, w))
    (solveG : 'M[F]_q -> 'M[F]_(q, k) -> 'M[F]_(q, k))
    (U : 'M[F]_(n, q)) (invC : 'M[F]_q) (V : 'M[F]_(q, n)) (b : 'M[F]_(n, k)) : 'M[F]_(n, k) :=
  let y := solveA k b in                  (* 48 *)
  let Y := solveA q U in                  (* 50 *)
  let G := invC + V *m Y in               (* 52 *)
  let t := solveG G (V *m y) in           (* 53-55 *)
  let v := solveA k (U *m t) in           (* 57 *)
  y - v.                                  (* 58 *)

Theorem smw_correct (A : 'M[F]_n) (U : 'M[F]_(n, q)) (C : 'M[F]_q) (V : 'M[F]_(q, n)) (b : 'M[F]_(n, k))
    (solveA : forall w, 'M[F]_(n, w) -> 'M[F]_(n, w)) (solveG : 'M[F]_q -> 'M[F]_(q, k) -> 'M[F]_(q, k)) (invC : 'M[F]_q) :
  (forall w (B : 'M[F]_(n, w)), A *m solveA w B = B) ->                  (* A is factorised exactly *)
  (forall G (B : 'M[F]_(q, k)), G \in unitmx -> G *m solveG G B = B) ->    (* so are invertible dense matrices *)
  C *m invC = 1%:M ->
  invC + V *m invmx A *m U \in unitmx ->
  (A + U *m C *m V) *m smw_solve solveA solveG U invC V b = b.
Proof.
move=> HA HG HC Gu.
have Au : A \in unitmx by case/mulmx1_unit: (HA n 1%:M).
have sA w (B : 'M[F]_(n, w)) : solveA w B = invmx A *m B by rewrite -[LHS](mulKmx Au) HA.
rewrite /smw_solve !sA [V *m (invmx A *m U)]mulmxA.
set G := invC + _; set t := solveG _ _.
have Ht : G *m t = V *m (invmx A *m b) by rewrite /t HG.
rewrite mulmxDl [A *m _]mulmxBr (mulKVmx Au) (mulKVmx Au) mulmxBr.
have -> : U *m C *m V *m (invmx A *m b) = U *m t + U *m C *m (V *m invmx A *m U *m t).
  rewrite -[U *m C *m V *m _]mulmxA -Ht /G mulmxDl mulmxDr; congr (_ + _).
  by rewrite mulmxA -[U *m C *m invC]mulmxA HC mulmx1.
by rewrite !mulmxA addrK addrNK.
Qed.

(* the hypothesis on G holds exactly when the perturbed system is regular *)
Theorem smw_regular_iff (A : 'M[F]_n) (U : 'M[F]_(n, q)) (C : 'M[F]_q) (V : 'M[F]_(q, n)) (invC : 'M[F]_q) :
  A \in unitmx -> C *m invC = 1%:M ->
  (A + U *m C *m V \in unitmx) = (invC + V *m invmx A *m U \in unitmx).
Proof.
move=> Au HC.
have [Cu iCu] := mulmx1_unit HC.
have HC' : invC *m C = 1%:M by apply: mulmx1C.
apply/idP/idP => H.
- set M := A + _ in H.
  have E : U *m C *m V = M - A by rewrite /M addrC addKr.
  suff X : (invC + V *m invmx A *m U) *m (C - C *m V *m invmx M *m U *m C) = 1%:M by case/mulmx1_unit: X.
  rewrite mulmxDl !mulmxBr HC' !mulmxA HC' mul1mx.
  have -> : V *m invmx A *m U *m C *m V *m invmx M *m U *m C = V *m invmx A *m U *m C - V *m invmx M *m U *m C.
    rewrite -[V *m invmx A *m U *m C]mulmxA -[V *m invmx A *m (U *m C) *m V]mulmxA E.
    rewrite mulmxBr mulmxBl -[V *m invmx A *m A]mulmxA (mulVmx Au) mulmx1 -[V *m invmx A *m M *m invmx M]mulmxA (mulmxV H) mulmx1.
    by rewrite !mulmxBl !mulmxA.
  by rewrite opprB [_ + (_ - _)]addrC !subrK.
- set G := invC + _ in H.
  suff X : (A + U *m C *m V) *m (invmx A - invmx A *m U *m invmx G *m V *m invmx A) = 1%:M by case/mulmx1_unit: X.
  rewrite mulmxDl !mulmxBr (mulmxV Au) !mulmxA (mulmxV Au) mul1mx.
  have E : V *m invmx A *m U = G - invC by rewrite /G addrC addKr.
  have -> : U *m C *m V *m invmx A *m U *m invmx G *m V *m invmx A = U *m C *m V *m invmx A - U *m invmx G *m V *m invmx A.
    rewrite -[U *m C *m V *m invmx A]mulmxA -[U *m C *m (V *m invmx A) *m U]mulmxA E.
    rewrite mulmxBr mulmxBl -[U *m C *m G *m invmx G]mulmxA (mulmxV H) mulmx1 -[U *m C *m invC]mulmxA HC mulmx1.
    by rewrite !mulmxBl !mulmxA.
  by rewrite opprB [_ + (_ - _)]addrC !subrK.
Qed.
End Smw.
Print Assumptions smw_correct.
Print Assumptions smw_regular_iff.

(* the hypotheses are met: A = C = U = V = 1 over the rationals, all solvers exact *)
Example smw_witness : let s := fun w (B : 'M[rat]_(1, w)) => B in
  (1%:M + 1%:M *m 1%:M *m 1%:M) *m smw_solve (n := 1) (q := 1) (k := 1) s (fun G B => invmx G *m B) 1%:M 1%:M 1%:M (1%:M : 'M[rat]_1) = 1%:M.
Proof.
apply: smw_correct.
- by move=> w B; rewrite mul1mx.
- by move=> G B Gu; rewrite mulKVmx.
- by rewrite mulmx1.
- rewrite invmx1 !mulmx1 unitmxE det_mx11 !mxE /=. by [].
Qed.
