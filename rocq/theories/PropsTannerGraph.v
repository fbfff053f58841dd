(* C17, C18: Tanner graphs of parity check matrices (qldpc/codes/common.py). *)
From mathcomp Require Import all_ssreflect.
From Verif Require Import TannerGraph.
Set Implicit Arguments.
Unset Strict Implicit.
Unset Printing Implicit Defensive.

(* C17: the round trip through the Tanner graph returns the matrix (with its shape) exactly when no row and no column is zero.
   Missing from the full statement: matrices with zero rows or columns, for which it is false *)
Theorem C17_round_trip_partial (F : eqType) (z : F) n (A : seq (seq F)) :
  all (fun r => size r == n) A ->
  graph_to_matrix z (matrix_to_graph z n A) = Some (size A, n, A) <->
  (forall i, i < size A -> exists2 j, j < n & nth z (nth [::] A i) j <> z) /\
  (forall j, j < n -> exists2 i, i < size A & nth z (nth [::] A i) j <> z).
Proof. exact: roundtrip_iff. Qed.

(* a zero column in the middle: IndexError; a zero column at the end: the matrix loses it *)
Theorem C17_round_trip_refuted : exists (A B : seq (seq nat)),
  [/\ all (fun r => size r == 3) A, all (fun r => size r == 3) B,
      graph_to_matrix 0 (matrix_to_graph 0 3 A) = None &
      graph_to_matrix 0 (matrix_to_graph 0 3 B) = Some (1, 2, [:: [:: 1; 1]])].
Proof. by exists [:: [:: 1; 0; 1]], [:: [:: 1; 1; 0]]. Qed.

(* C18: the same for qudit codes: every check acts on some qudit and every qudit is touched by some check *)
Theorem C18_round_trip_partial (F : eqType) (z : F) n (A : seq (seq F)) :
  A <> [::] -> all (fun r => size r == n + n) A ->
  obind (qgraph_to_matrix z) (qmatrix_to_graph z n A) = Some (size A, 2 * n, A) <->
  (forall i, i < size A -> exists2 j, j < n + n & nth z (nth [::] A i) j <> z) /\
  (forall j, j < n -> exists2 i, i < size A & nth z (nth [::] A i) j <> z \/ nth z (nth [::] A i) (n + j) <> z).
Proof. exact: qroundtrip_iff. Qed.

Theorem C18_round_trip_refuted : exists (A B : seq (seq nat)),
  [/\ all (fun r => size r == 4) A, all (fun r => size r == 4) B,
      obind (qgraph_to_matrix 0) (qmatrix_to_graph 0 2 A) = None &
      obind (qgraph_to_matrix 0) (qmatrix_to_graph 0 2 B) = Some (1, 4, [:: [:: 1; 1; 0; 0]])].
Proof. by exists [:: [:: 0; 1; 0; 1]], [:: [:: 1; 1; 0; 0]; [:: 0; 0; 0; 0]]. Qed.

(* non-vacuity *)
Example ex_C17 : graph_to_matrix 0 (matrix_to_graph 0 3 [:: [:: 1; 2; 0]; [:: 0; 1; 1]]) = Some (2, 3, [:: [:: 1; 2; 0]; [:: 0; 1; 1]]).
Proof. by []. Qed.
Example ex_C17_graph : nodes (matrix_to_graph 0 3 [:: [:: 1; 2; 0]; [:: 0; 1; 1]]) =
  [:: (0, false); (0, true); (1, true); (1, false); (2, true)].
Proof. by []. Qed.
Example ex_C18 : obind (qgraph_to_matrix 0) (qmatrix_to_graph 0 2 [:: [:: 1; 1; 1; 0]; [:: 0; 0; 2; 2]]) =
  Some (2, 4, [:: [:: 1; 1; 1; 0]; [:: 0; 0; 2; 2]]).
Proof. by []. Qed.

Print Assumptions C17_round_trip_partial.
Print Assumptions C17_round_trip_refuted.
Print Assumptions C18_round_trip_partial.
Print Assumptions C18_round_trip_refuted.
