(* Property C43: hypergraph products of Tanner graphs and of parity check matrices. *)
From mathcomp Require Import all_ssreflect all_algebra zify.
From Verif Require Import LinAlg RowReduce Css TannerGraph Product HGPGraph PropsClassical.
Set Implicit Arguments.
Unset Strict Implicit.
Unset Printing Implicit Defensive.
Import GRing.Theory.
Local Open Scope ring_scope.

(* C43: for all matrices over a field without zero rows and zero columns, the product of the Tanner graphs is the Tanner graph
   of the code with the parity checks of the matrix product (C42 says entry by entry what these are), with the same order of
   checks and qudits, in whatever order networkx lists the edges.
   Missing from the full statement: matrices with zero rows or columns, for which it is false *)
Theorem C43_product_partial (F : fieldType) n1 n2 (A B : seq (seq F)) es :
  all (fun r => size r == n1) A -> all (fun r => size r == n2) B ->
  (forall i, (i < size A)%N -> exists2 j, (j < n1)%N & nth 0 (nth [::] A i) j <> 0) ->
  (forall j, (j < n1)%N -> exists2 i, (i < size A)%N & nth 0 (nth [::] A i) j <> 0) ->
  (forall i, (i < size B)%N -> exists2 j, (j < n2)%N & nth 0 (nth [::] B i) j <> 0) ->
  (forall j, (j < n2)%N -> exists2 i, (i < size B)%N & nth 0 (nth [::] B i) j <> 0) ->
  perm_eq es (cart_edges (matrix_to_graph 0 n1 A) (matrix_to_graph 0 n2 B)) ->
  exists2 G, graph_product (matrix_to_graph 0 n1 A) (matrix_to_graph 0 n2 B) es = Some G &
    qgraph_to_matrix 0 G = Some ((size A * n2 + n1 * size B)%N, (2 * (n1 * n2 + size A * size B))%N,
      css_mat (n1 * n2 + size A * size B) (hgp_x n1 n2 A B) (hgp_z n1 n2 A B)).
Proof.
move=> wA wB rA cA rB cB pe.
have fullg n (C : seq (seq F)) : (forall i, (i < size C)%N -> exists2 j, (j < n)%N & nth 0 (nth [::] C i) j <> 0) ->
    (forall j, (j < n)%N -> exists2 i, (i < size C)%N & nth 0 (nth [::] C i) j <> 0) ->
    full (size C) n (nodes (matrix_to_graph 0 n C)).
  move=> hr hc; apply: full_graph; first exact: graph_gok.
    move=> i; rewrite graph_checks mem_iota add0n /=; case: ltnP => //= hi.
    by have [j hj /eqP ne] := hr i hi; apply/hasP; exists j; rewrite ?mem_iota.
  move=> j; rewrite graph_data mem_iota add0n /=; case: ltnP => //= hj.
  by have [i hi /eqP ne] := hc j hj; apply/hasP; exists i; rewrite ?mem_iota.
have entg n (C : seq (seq F)) i j : (i < size C)%N -> (j < n)%N ->
    ent C i j = if elook (edges (matrix_to_graph 0 n C)) (i, j) is Some v then v else 0.
  by move=> hi hj; rewrite graph_look mem_nonzero hi hj /=; case: eqP.
apply: (product_matrix (graph_gok 0 n1 A) (graph_gok 0 n2 B) (fullg _ _ rA cA) (fullg _ _ rB cB)) => //;
  by [apply: perm_mem | move=> *; apply: entg].
Qed.

(* a zero column: the product code has five qubits, the product of the graphs describes a code on three qubits *)
Theorem C43_product_refuted : exists (A B : seq (seq 'F_2)) es G,
  [/\ all (fun r => size r == 2%N) A /\ all (fun r => size r == 2%N) B,
      perm_eq es (cart_edges (matrix_to_graph 0 2 A) (matrix_to_graph 0 2 B)),
      graph_product (matrix_to_graph 0 2 A) (matrix_to_graph 0 2 B) es = Some G,
      omap (fun r => (r.1.1, r.1.2)) (qgraph_to_matrix 0 G) = Some (3%N, 6%N)
    & size (css_mat (2 * 2 + 1) (hgp_x 2 2 A B) (hgp_z 2 2 A B)) = 4%N].
Proof.
set A := b2 [:: [:: 1; 0]]%N; set B := b2 [:: [:: 1; 1]]%N.
set es := cart_edges (matrix_to_graph 0 2 A) (matrix_to_graph 0 2 B).
have [G eG] : exists G, graph_product (matrix_to_graph 0 2 A) (matrix_to_graph 0 2 B) es = Some G.
  have : isSome (graph_product (matrix_to_graph 0 2 A) (matrix_to_graph 0 2 B) es) by vm_compute.
  by case: graph_product => [G|] // _; exists G.
exists A, B, es, G; split; [by vm_compute | exact: perm_refl | exact: eG | | by vm_compute].
have : omap (fun r => (r.1.1, r.1.2)) (obind (qgraph_to_matrix 0) (graph_product (matrix_to_graph 0 2 A) (matrix_to_graph 0 2 B) es)) = Some (3%N, 6%N).
  by vm_compute.
by rewrite eG.
Qed.

(* non-vacuity: two matrices over the field with three elements, with the Tanner graph of their product *)
Example ex_C43 : let A : seq (seq 'F_3) := [:: [:: 1; -1; 0]; [:: 0; 1; -1]] in let B : seq (seq 'F_3) := [:: [:: 1; -1]] in
  all (fun j => has (fun r => nth 0 r j != 0) A) [:: 0; 1; 2]%N /\
  obind (qgraph_to_matrix 0) (graph_product (matrix_to_graph 0 3 A) (matrix_to_graph 0 2 B) (rev (cart_edges (matrix_to_graph 0 3 A) (matrix_to_graph 0 2 B))))
  == Some (7%N, 16%N, css_mat 8 (hgp_x 3 2 A B) (hgp_z 3 2 A B)).
Proof. by split; vm_compute. Qed.

Print Assumptions C43_product_partial.
Print Assumptions C43_product_refuted.
