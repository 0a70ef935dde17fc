(* Model of the quadrature tables (fdaPDE/utils/integration/integrator_tables.h) and of the 1D spline integrator
   (integrator.h:126-154).  The decimal literals are taken at their exact decimal value: their rounding to binary64
   is not modelled. *)
From Coq Require Export List QArith Qreals Reals.
From Verif Require Export RSum.
Export ListNotations.
Local Close Scope Q_scope.
Local Open Scope R_scope.

Record rule := Rule { q_nodes : list (list Q); q_weights : list Q }.
(* IntegratorTable<1, 2>, lines 64-77 *)
Definition table_1_2 : rule := (Rule [[0.211324865405187];
   [0.788675134594812]]
  [0.500000000000000; 0.500000000000000])%Q.
(* IntegratorTable<1, 3>, lines 80-93 *)
Definition table_1_3 : rule := (Rule [[0.112701665379258];
   [0.500000000000000];
   [0.887298334620741]]
  [0.277777777777778; 0.444444444444444; 0.277777777777778])%Q.
(* IntegratorTable<1, 3, GaussLegendre>, lines 96-109 *)
Definition table_gl_1_3 : rule := (Rule [[(-0.774596669241483)];
   [0.000000000000000];
   [0.774596669241483]]
  [0.555555555555555; 0.888888888888888; 0.555555555555555])%Q.
(* IntegratorTable<1, 5, GaussLegendre>, lines 112-126 *)
Definition table_gl_1_5 : rule := (Rule [[(-0.906179845938664)];
   [(-0.538469310105683)];
   [0.000000000000000];
   [0.538469310105683];
   [0.906179845938664]]
  [0.236926885056189; 0.478628670499366; 0.568888888888889; 0.478628670499366; 0.236926885056189])%Q.
(* IntegratorTable<2, 1>, lines 132-143 *)
Definition table_2_1 : rule := (Rule [[0.333333333333333; 0.333333333333333]]
  [1.0])%Q.
(* IntegratorTable<2, 3>, lines 146-161 *)
Definition table_2_3 : rule := (Rule [[0.166666666666667; 0.166666666666667];
   [0.666666666666667; 0.166666666666667];
   [0.166666666666667; 0.666666666666667]]
  [0.333333333333333; 0.333333333333333; 0.333333333333333])%Q.
(* IntegratorTable<2, 6>, lines 164-183 *)
Definition table_2_6 : rule := (Rule [[0.445948490915965; 0.445948490915965];
   [0.445948490915965; 0.108103018168070];
   [0.108103018168070; 0.445948490915965];
   [0.091576213509771; 0.091576213509771];
   [0.091576213509771; 0.816847572980459];
   [0.816847572980459; 0.091576213509771]]
  [0.223381589678011; 0.223381589678011; 0.223381589678011; 0.109951743655322; 0.109951743655322; 0.109951743655322])%Q.
(* IntegratorTable<2, 7>, lines 186-207 *)
Definition table_2_7 : rule := (Rule [[0.333333333333333; 0.333333333333333];
   [0.101286507323456; 0.101286507323456];
   [0.101286507323456; 0.797426985353087];
   [0.797426985353087; 0.101286507323456];
   [0.470142064105115; 0.470142064105115];
   [0.470142064105115; 0.059715871789770];
   [0.059715871789770; 0.470142064105115]]
  [0.225000000000000; 0.125939180544827; 0.125939180544827; 0.125939180544827; 0.132394152788506; 0.132394152788506; 0.132394152788506])%Q.
(* IntegratorTable<2, 12>, lines 210-236 *)
Definition table_2_12 : rule := (Rule [[0.873821971016996; 0.063089014491502];
   [0.063089014491502; 0.873821971016996];
   [0.063089014491502; 0.063089014491502];
   [0.501426509658179; 0.249286745170910];
   [0.249286745170910; 0.501426509658179];
   [0.249286745170910; 0.249286745170910];
   [0.636502499121399; 0.310352451033785];
   [0.636502499121399; 0.053145049844816];
   [0.310352451033785; 0.636502499121399];
   [0.310352451033785; 0.053145049844816];
   [0.053145049844816; 0.636502499121399];
   [0.053145049844816; 0.310352451033785]]
  [0.050844906370207; 0.050844906370207; 0.050844906370207; 0.116786275726379; 0.116786275726379; 0.116786275726379; 0.082851075618374; 0.082851075618374; 0.082851075618374; 0.082851075618374; 0.082851075618374; 0.082851075618374])%Q.
(* IntegratorTable<3, 1>, lines 242-253 *)
Definition table_3_1 : rule := (Rule [[0.250000000000000; 0.250000000000000; 0.250000000000000]]
  [1.0])%Q.
(* IntegratorTable<3, 4>, lines 256-272 *)
Definition table_3_4 : rule := (Rule [[0.585410196624969; 0.138196601125011; 0.138196601125011];
   [0.138196601125011; 0.138196601125011; 0.138196601125011];
   [0.138196601125011; 0.138196601125011; 0.585410196624969];
   [0.138196601125011; 0.585410196624969; 0.138196601125011]]
  [0.250000000000000; 0.250000000000000; 0.250000000000000; 0.250000000000000])%Q.
(* IntegratorTable<3, 5>, lines 275-292 *)
Definition table_3_5 : rule := (Rule [[0.250000000000000; 0.250000000000000; 0.250000000000000];
   [0.500000000000000; 0.166666666666667; 0.166666666666667];
   [0.166666666666667; 0.500000000000000; 0.166666666666667];
   [0.166666666666667; 0.166666666666667; 0.500000000000000];
   [0.166666666666667; 0.166666666666667; 0.166666666666667]]
  [(-0.80000000000000); 0.450000000000000; 0.450000000000000; 0.450000000000000; 0.450000000000000])%Q.
(* IntegratorTable<3, 11>, lines 295-320 *)
Definition table_3_11 : rule := (Rule [[0.2500000000000000; 0.2500000000000000; 0.2500000000000000];
   [0.7857142857142857; 0.0714285714285714; 0.0714285714285714];
   [0.0714285714285714; 0.0714285714285714; 0.0714285714285714];
   [0.0714285714285714; 0.0714285714285714; 0.7857142857142857];
   [0.0714285714285714; 0.7857142857142857; 0.0714285714285714];
   [0.1005964238332008; 0.3994035761667992; 0.3994035761667992];
   [0.3994035761667992; 0.1005964238332008; 0.3994035761667992];
   [0.3994035761667992; 0.3994035761667992; 0.1005964238332008];
   [0.3994035761667992; 0.1005964238332008; 0.1005964238332008];
   [0.1005964238332008; 0.3994035761667992; 0.1005964238332008];
   [0.1005964238332008; 0.1005964238332008; 0.3994035761667992]]
  [(-0.0789333333333333); 0.0457333333333333; 0.0457333333333333; 0.0457333333333333; 0.0457333333333333; 0.1493333333333333; 0.1493333333333333; 0.1493333333333333; 0.1493333333333333; 0.1493333333333333; 0.1493333333333333])%Q.

(* standard_fem_quadrature_rule<N, R>::K, lines 23-58 *)
Definition standard_rule (dim order : nat) : nat :=
  match dim, order with
  | 1, 1 => 2 | 1, _ => 3
  | 2, 1 => 3 | 2, 2 => 6 | 2, _ => 12
  | 3, 1 => 4 | 3, _ => 5
  | _, _ => 0
  end%nat.
(* IntegratorTable<M, K> [integrator_tables.h:64-320] *)
Definition table_of (M K : nat) : option rule :=
  match M, K with
  | 1, 2 => Some table_1_2 | 1, 3 => Some table_1_3
  | 2, 1 => Some table_2_1 | 2, 3 => Some table_2_3 | 2, 6 => Some table_2_6 | 2, 7 => Some table_2_7 | 2, 12 => Some table_2_12
  | 3, 1 => Some table_3_1 | 3, 4 => Some table_3_4 | 3, 5 => Some table_3_5 | 3, 11 => Some table_3_11
  | _, _ => None
  end%nat.
(* \sum_iq f(nodes[iq]) * weights[iq], e.g. integrator.h 49-56 before the correction by the measure *)
Definition quadrature (r : rule) (f : list R -> R) : R :=
  lsum (map (fun nw => f (map Q2R (fst nw)) * Q2R (snd nw)) (combine (q_nodes r) (q_weights r))).
(* Integrator<SPLINE, 1, Order>::integrate(a, b, f), integrator.h 134-142 *)
Definition spline_integrate (a b : R) (f : R -> R) : R :=
  (b - a) / 2 * quadrature table_gl_1_3 (fun x => f ((b - a) / 2 * nth 0 x 0 + (b + a) / 2)).
