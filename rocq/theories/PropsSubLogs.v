(* C27: what holds of the logical operators of every subsystem code for which get_logical_ops() returns *)
From mathcomp Require Import all_ssreflect all_algebra zify.
From Verif Require Import LinAlg RowReduce Classical ClassicalProofs Symplectic Quantum QuantumProofs SubLogs PropsClassical PropsCss.
Set Implicit Arguments.
Unset Strict Implicit.
Unset Printing Implicit Defensive.
Import GRing.Theory.
Local Open Scope ring_scope.

Section Props.
Variable F : fieldType.

(* missing: that an answer is always returned, that the operators commute with the gauge operators, and that operators of
   X type commute with each other.  All three are false (C27_exception_refuted, C27_gauge_refuted, C27_pairs_refuted) *)
Theorem C27_duality_partial (c : qcode F) L : q_ok c -> q_sub c -> q_logs c = None -> get_logical_ops c = Some L ->
  let n := q_n c in let k := q_dimension c in
  [/\ size L = (k + k)%N, wf (n + n) L,
      forall i j, (i < k)%N -> (j < k)%N -> symp n (nth [::] L i) (nth [::] L (k + j)) = (i == j)%:R,
      forall i j, (i < k)%N -> (j < n)%N -> nth 0 (nth [::] L (k + i)) j = 0
    & forall i j, (i < k)%N -> (j < k)%N -> symp n (nth [::] L (k + i)) (nth [::] L (k + j)) = 0].
Proof. exact: sub_logical_ops. Qed.

(* so the answer is right exactly if two checks succeed: the operators of X type commute with each other, and all operators
   commute with the gauge operators *)
Theorem C27_criterion (c : qcode F) L : q_ok c -> q_sub c -> q_logs c = None -> get_logical_ops c = Some L ->
  let n := q_n c in let k := q_dimension c in
  logical_basis n k (q_mat c) L <->
  (forall i j, (i < j)%N -> (j < k)%N -> symp n (nth [::] L i) (nth [::] L j) = 0) /\
  (forall r l, r \in q_mat c -> l \in L -> symp n r l = 0).
Proof.
move=> ok sb nl e n k; have [sL wL d _ z] := C27_duality_partial ok sb nl e.
have no i j : (j < i + k)%N -> (i < j + k)%N -> (j == i + k)%N%:R - (i == j + k)%N%:R = 0 :> F.
  by move=> h1 h2; rewrite (ltn_eqF h1) (ltn_eqF h2) subrr.
split=> [[[_ _ h] cm] | [x cm]].
  by split=> // i j lij lj; rewrite h ?no //; move: lij lj; clear; lia.
split=> //; split=> // i j li lj.
have asym u v : symp n u v = - symp n v u.
  by rewrite /symp -sumrN; apply: eq_bigr => q _; rewrite opprB mulrC [X in _ - X]mulrC.
have self u : symp n u u = 0 by rewrite /symp big1 // => q _; rewrite mulrC subrr.
have x' i' j' : (i' < k)%N -> (j' < k)%N -> symp n (nth [::] L i') (nth [::] L j') = 0.
  by move=> li' lj'; case: (ltngtP i' j') => h; [apply: x | rewrite asym x ?oppr0 | rewrite h self].
case: (ltnP i k) => hi; case: (ltnP j k) => hj.
- by rewrite x' // no //; move: hi hj; clear; lia.
- have e1 : (i == j + k)%N = false by apply/eqP; move: hi; clear; lia.
  have e2 : (j == i + k)%N = (i == j - k)%N by apply/eqP/eqP; move: hj; clear; lia.
  by rewrite e1 e2 subr0 -{1}(subnKC hj) d //; move: hj lj; clear; lia.
- have e1 : (j == i + k)%N = false by apply/eqP; move: hj; clear; lia.
  have e2 : (i == j + k)%N = (j == i - k)%N by apply/eqP/eqP; move: hi; clear; lia.
  by rewrite e1 e2 sub0r asym -{1}(subnKC hi) d //; move: hi li; clear; lia.
- rewrite no; try by move: hi hj li lj; clear; lia.
  by rewrite -(subnKC hi) -(subnKC hj) z //; move: hi hj li lj; clear; lia.
Qed.
End Props.

(* non-vacuity: a code on three qubits whose gauge group contains X Z-type products; the answer passes the two checks.  For
   sub_a the second check fails, and for sub_c the first *)
Definition sub_d := mkq 3 (b2 [:: [:: 1;1;0; 0;0;1]; [:: 0;0;0; 1;0;0]]%N) None.
Example ex_C27_good : q_ok sub_d /\ q_sub sub_d /\ exists L,
  [/\ get_logical_ops sub_d = Some L, q_dimension sub_d = 2%N & logical_basis 3 (q_dimension sub_d) (q_mat sub_d) L].
Proof.
split; first exact: q_ok_mk.
split; first by vm_compute.
have [L e1 h] : exists2 L, get_logical_ops sub_d = Some L &
    dual_b 3 (q_dimension sub_d) L && comm_b 3 (q_mat sub_d) L by apply: some_with; vm_compute.
have ed : q_dimension sub_d = 2%N by vm_compute.
exists L; split; [exact: e1 | exact: ed | exact: logical_basisP h].
Qed.
Example ex_C27_bad : [/\ q_ok sub_c, q_sub sub_c, q_logs sub_c = None & isSome (get_logical_ops sub_c)].
Proof. by split; [apply: q_ok_mk | vm_compute | | vm_compute]. Qed.

Print Assumptions C27_duality_partial.
Print Assumptions C27_criterion.
