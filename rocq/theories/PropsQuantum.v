(* Properties C22 - C26 and C29: qudit codes, their stabilizers, dimensions and logical operators. *)
From mathcomp Require Import all_ssreflect all_algebra zify.
From Verif Require Import LinAlg RowReduce Classical ClassicalProofs ClassicalProofs2 Symplectic Quantum QuantumProofs
  QuantumPerm QuantumStab QuantumLogs PropsClassical.
Set Implicit Arguments.
Unset Strict Implicit.
Unset Printing Implicit Defensive.
Import GRing.Theory.
Local Open Scope ring_scope.

(* concrete codes used as non-vacuity examples and as witnesses *)
Definition five_qubit := mkq 5 (b2
  [:: [:: 1;0;0;1;0; 0;1;1;0;0]; [:: 0;1;0;0;1; 0;0;1;1;0]; [:: 1;0;1;0;0; 0;0;0;1;1]; [:: 0;1;0;1;0; 1;0;0;0;1]]%N) None.
Definition bacon_shor := mkq 4 (b2
  [:: [:: 1;1;0;0; 0;0;0;0]; [:: 0;0;1;1; 0;0;0;0]; [:: 0;0;0;0; 1;0;1;0]; [:: 0;0;0;0; 0;1;0;1]]%N) None.
(* the checks X1 Z2 and Z1 X2 on two qutrits *)
Definition qutrits := mkq 2 (b3 [:: [:: 1;0; 0;1]; [:: 0;1; 1;0]]%N) None.
(* a subsystem code on three qubits which presets its stabilizers Z2, Z1 Z2 as SHPCode does *)
Definition preset_mat := b2 [:: [:: 0;0;0; 0;1;0]; [:: 0;0;0; 1;1;0]; [:: 0;0;1; 0;0;0]; [:: 0;0;0; 0;0;1]]%N.
Definition preset := set_stab (mkq 3 preset_mat None) (b2 [:: [:: 0;0;0; 0;1;0]; [:: 0;0;0; 1;1;0]]%N).
(* two logical qubits and the check Z3; candidate logical operators X1, Z1 X2, Z1, Z2 *)
Definition z3_code := mkq 3 (b2 [:: [:: 0;0;0; 0;0;1]]%N) None.
Definition bad_ops := b2 [:: [:: 1;0;0; 0;0;0]; [:: 0;1;0; 1;0;0]; [:: 0;0;0; 1;0;0]; [:: 0;0;0; 0;1;0]]%N.

Section Props.
Variable F : fieldType.
Implicit Types c : qcode F.

(* C22 *)
Theorem C22_classification n (H : seq (seq F)) : wf (n + n) H ->
  q_sub (mkq n H None) = false <-> commuting n H.
Proof. exact: anticommP. Qed.

Theorem C22_objects_ok n (H : seq (seq F)) : wf (n + n) H -> q_ok (mkq n H None).
Proof. by move=> wH; apply: q_ok_mk. Qed.

(* C23 *)
Theorem C23_stabilizers c recompute canonicalized v : q_ok c ->
  span (q_n c + q_n c) (get_stabilizer_ops c recompute canonicalized).1 v <-> central (q_n c) (q_mat c) v.
Proof.
move=> ok; have [ws e _ _ _] := stab_ops_ok recompute canonicalized ok; have [wA _ _ _ _] := ok.
by move: v; apply/center_span.
Qed.

(* the call leaves the code valid *)
Theorem C23_state c recompute canonicalized : q_ok c ->
  let c' := (get_stabilizer_ops c recompute canonicalized).2 in
  [/\ q_ok c', q_n c' = q_n c, q_mat c' = q_mat c & q_sub c' = q_sub c].
Proof. by move=> ok /=; have [_ _ _ ok' [e1 [e2 e3]]] := stab_ops_ok recompute canonicalized ok. Qed.

(* C24: minimal generating set always, reduced row echelon form unless the code presets its stabilizers *)
Theorem C24_minimal c recompute : q_ok c ->
  center_basis (q_n c) (q_mat c) (get_stabilizer_ops c recompute true).1.
Proof.
move=> ok; have [ws e fr _ _] := stab_ops_ok recompute true ok; have [wA _ _ _ _] := ok.
by split=> //; [apply/(indepP ws)/fr | apply/center_span].
Qed.

Theorem C24_rref_partial c recompute : q_ok c -> q_sub c = false \/ recompute = true \/ q_stab c = None ->
  rref_spec (q_n c + q_n c) (get_stabilizer_ops c recompute true).1.
Proof. exact: stab_ops_rref. Qed.

(* C25 *)
Theorem C25_bookkeeping c : q_ok c -> counts (q_n c) (q_mat c) (q_dimension c) (q_gauge_dimension c).
Proof. exact: dimension_counts. Qed.

Theorem C25_unique n (H : seq (seq F)) k g k' g' : wf (n + n) H -> counts n H k g -> counts n H k' g' -> k = k' /\ g = g'.
Proof. exact: counts_unique. Qed.

Theorem C25_exact c : q_ok c ->
  let s := size (get_stabilizer_ops c false true).1 in
  (q_n c = q_dimension c + q_gauge_dimension c + s)%N /\ (q_rank c = s + 2 * q_gauge_dimension c)%N.
Proof. exact: bookkeeping. Qed.

(* C26 *)
Theorem C26_logicals c : q_ok c -> q_sub c = false ->
  exists L, get_logical_ops c = Some L /\ logical_basis (q_n c) (q_dimension c) (q_mat c) L.
Proof. exact: stab_logical_ops. Qed.

(* C29: X-Z duality and commutation with the checks are established by the validation, and valid operators pass; the
   documented relations among the X-type (Z-type) operators are not checked, see C29_validation_refuted *)
Theorem C29_validation_partial c ops c' : q_ok c -> wf (q_n c + q_n c) ops -> set_logical_ops c ops true = Some c' ->
  let k := q_dimension c in
  [/\ size ops = (k + k)%N,
      (forall i j, (i < k)%N -> (j < k)%N ->
         symp (q_n c) (nth [::] ops i) (nth [::] ops (k + j)) = (i == j)%:R),
      (forall r l, r \in q_mat c -> l \in ops -> symp (q_n c) r l = 0)
    & c' = QCode (q_n c) (q_mat c) (q_sub c) (q_stab c) (q_gauge c) (Some ops) (Some k)].
Proof. exact: set_logical_ops_ok. Qed.

Theorem C29_accepts_valid c ops : q_ok c -> logical_basis (q_n c) (q_dimension c) (q_mat c) ops ->
  exists c', set_logical_ops c ops true = Some c' /\ q_ok c'.
Proof. by move=> ok /(set_logical_ops_complete ok) h; eexists; exact: h. Qed.
End Props.

Theorem C24_rref_refuted : exists (F : fieldType) (c : qcode F), q_ok c /\
  ~ rref_spec (q_n c + q_n c) (get_stabilizer_ops c false true).1.
Proof.
exists [fieldType of 'F_2], preset; split.
  have w : wf (3 + 3) preset_mat by [].
  have ws : wf (3 + 3) (b2 [:: [:: 0;0;0; 0;1;0]; [:: 0;0;0; 1;1;0]]%N) by [].
  split=> //= s [<-]; split=> //; apply/center_span => //.
  apply: eqmx_trans (eqmx_sym (sp_canon ws)) _.
  have -> : canon (3 + 3) (b2 [:: [:: 0;0;0; 0;1;0]; [:: 0;0;0; 1;1;0]]%N) = compute_stabs 3 preset_mat.
    by apply/eqP; vm_compute.
  by have [] := compute_stabs_ok w.
have -> : (get_stabilizer_ops preset false true).1 = b2 [:: [:: 0;0;0; 0;1;0]; [:: 0;0;0; 1;1;0]]%N.
  by apply/eqP; vm_compute.
case=> ps [/= _ lt inc zero piv].
have p0 := piv 0%N 0%N erefl erefl; have p1 := piv 1%N 1%N erefl erefl; have p10 := piv 1%N 0%N erefl erefl.
have p01 := piv 0%N 1%N erefl erefl; have i01 := inc 0%N 1%N erefl.
have l1 := lt 1%N erefl; have l0 := lt 0%N erefl.
move: p0 p1 p01 p10 i01 l1 l0; case: (nth 0%N ps 0) => [|[|[|[|[|[|]]]]]] //.
Qed.

Theorem C29_validation_refuted : exists (F : fieldType) (c c' : qcode F) ops, 
  [/\ q_ok c, wf (q_n c + q_n c) ops, set_logical_ops c ops true = Some c' & ~ dual_pairs (q_n c) (q_dimension c) ops].
Proof.
pose c' := (if set_logical_ops z3_code bad_ops true is Some c' then c' else z3_code).
exists [fieldType of 'F_2], z3_code, c', bad_ops; split=> //.
  by apply: q_ok_mk.
case=> _ _; have -> : q_dimension z3_code = 2%N by vm_compute.
move=> /(_ 0%N 1%N erefl erefl); rewrite /symp !big_ord_recl big_ord0 /= => /eqP; by vm_compute.
Qed.

Example ex_codes : q_ok five_qubit /\ q_ok bacon_shor /\ q_ok qutrits.
Proof. by split; [|split]; apply: q_ok_mk. Qed.
Example ex_C22 : ~~ q_sub five_qubit /\ q_sub bacon_shor /\ ~~ q_sub qutrits.
Proof. by split; [|split]; vm_compute. Qed.
Example ex_C23 : (get_stabilizer_ops bacon_shor false false).1 = b2 [:: [:: 1;1;1;1; 0;0;0;0]; [:: 0;0;0;0; 1;1;1;1]]%N.
Proof. by apply/eqP; vm_compute. Qed.
Example ex_C24 : q_stab bacon_shor = None /\ size (get_stabilizer_ops five_qubit false true).1 = 4%N.
Proof. by split; [|vm_compute]. Qed.
Example ex_C25 : [/\ q_dimension bacon_shor = 1%N, q_gauge_dimension bacon_shor = 1%N & q_dimension five_qubit = 1%N].
Proof. by split; vm_compute. Qed.
Example ex_C26 : isSome (get_logical_ops five_qubit) /\ q_sub five_qubit = false.
Proof. by split; vm_compute. Qed.
Example ex_C29 : isSome (set_logical_ops five_qubit (b2 [:: [:: 1;1;1;1;1; 0;0;0;0;0]; [:: 0;0;0;0;0; 1;1;1;1;1]]%N) true).
Proof. by vm_compute. Qed.

Print Assumptions C22_classification.
Print Assumptions C22_objects_ok.
Print Assumptions C23_stabilizers.
Print Assumptions C23_state.
Print Assumptions C24_minimal.
Print Assumptions C24_rref_partial.
Print Assumptions C24_rref_refuted.
Print Assumptions C25_bookkeeping.
Print Assumptions C25_unique.
Print Assumptions C25_exact.
Print Assumptions C26_logicals.
Print Assumptions C29_validation_partial.
Print Assumptions C29_accepts_valid.
Print Assumptions C29_validation_refuted.
