(* Properties C27, C28, C30 and C73: logical and gauge operators of CSS codes. *)
From mathcomp Require Import all_ssreflect all_algebra zify.
From Verif Require Import LinAlg RowReduce Classical ClassicalProofs ClassicalProofs2 Symplectic Quantum QuantumProofs
  QuantumPerm QuantumStab QuantumLogs QuantumOps Css CssForm CssLogs CssProofs CssGauge PropsClassical.
Set Implicit Arguments.
Unset Strict Implicit.
Unset Printing Implicit Defensive.
Import GRing.Theory.
Local Open Scope ring_scope.

(* subsystem codes on two and three qubits *)
Definition sub_a := mkq 2 (b2 [:: [:: 1;1;1;0]; [:: 1;0;0;0]]%N) None.
Definition sub_b := mkq 2 (b2 [:: [:: 1;1;0;0]; [:: 0;1;0;1]]%N) None.
Definition sub_c := mkq 3 (b2 [:: [:: 1;0;0;1;0;1]; [:: 0;0;0;1;1;1]]%N) None.

(* concrete codes: the Steane code, the Bacon-Shor code on four qubits, a subsystem code on five qutrits *)
Definition ham := b2 [:: [:: 0;0;0;1;1;1;1]; [:: 0;1;1;0;0;1;1]; [:: 1;0;1;0;1;0;1]]%N.
Definition steane := mkcss 7 ham ham None.
Definition bacon_shor_css := mkcss 4 (b2 [:: [:: 1;1;0;0]; [:: 0;0;1;1]]%N) (b2 [:: [:: 1;0;1;0]; [:: 0;1;0;1]]%N) None.
Definition trits := mkcss 5 (b3 [:: [:: 1;2;0;0;1]; [:: 0;1;1;1;0]; [:: 1;0;1;1;1]]%N)
                            (b3 [:: [:: 1;1;2;0;1]; [:: 0;0;1;2;1]]%N) None.
(* one logical qubit and the check Z2 *)
Definition z2_code := mkcss 2 [::] (b2 [:: [:: 0;1]]%N) None.

(* from a computed boolean to a statement about the computed value *)
Lemma some_with (T : Type) (o : option T) (P : T -> bool) : (if o is Some x then P x else false) -> exists2 x, o = Some x & P x.
Proof. by case: o => // x h; exists x. Qed.
Lemma is_none (T : Type) (o : option T) : ~~ isSome o -> o = None.
Proof. by case: o. Qed.

(* the symplectic product as a computable sum *)
Definition symp_fold (F : fieldType) n (u v : seq F) : F :=
  foldr +%R 0 [seq nth 0 u j * nth 0 v (n + j) - nth 0 u (n + j) * nth 0 v j | j <- iota 0 n].
Lemma symp_foldE (F : fieldType) n (u v : seq F) : symp_fold n u v = symp n u v.
Proof.
rewrite /symp_fold /symp -(big_mkord xpredT (fun j => nth 0 u j * nth 0 v (n + j) - nth 0 u (n + j) * nth 0 v j)).
by rewrite /index_iota subn0 unlock /= foldr_map; elim: (iota 0 n) => //= a s ->.
Qed.

Section Props.
Variable F : fieldType.
Implicit Types c : csscode F.

(* valid objects exist for all check matrices *)
Theorem C28_objects_ok n (X Z : seq (seq F)) : wf n X -> wf n Z -> c_ok (mkcss n X Z None).
Proof. by move=> wX wZ; apply: c_ok_mk. Qed.

(* C28: the operators exist (no exception), consist of k rows [x|0] and k rows [0|z], commute with all checks and are dual;
   k is the number of logical qudits of the code *)
Theorem C28_css_logicals c recompute : c_ok c -> exists lx lz,
  [/\ c_get_logical_ops c recompute = Some (bdiag (c_n c) (c_n c) lx lz), size lx = c_dimension c, size lz = c_dimension c
    & logical_basis (c_n c) (c_dimension c) (css_mat (c_n c) (c_x c) (c_z c)) (bdiag (c_n c) (c_n c) lx lz)].
Proof. exact: c_logicals_ok. Qed.

Theorem C28_dimension c : c_ok c ->
  counts (c_n c) (css_mat (c_n c) (c_x c) (c_z c)) (c_dimension c) (c_gauge_dimension c).
Proof. exact: c_counts. Qed.

(* get_logical_ops(Pauli.X) and get_logical_ops(Pauli.Z) are the halves of get_logical_ops() *)
Theorem C28_by_type c : c_ok c -> exists lx lz,
  [/\ c_get_logical_ops_pauli c true = Some lx, c_get_logical_ops_pauli c false = Some lz,
      c_get_logical_ops c false = Some (bdiag (c_n c) (c_n c) lx lz), wf (c_n c) lx /\ wf (c_n c) lz
    & logical_basis (c_n c) (c_dimension c) (css_mat (c_n c) (c_x c) (c_z c)) (bdiag (c_n c) (c_n c) lx lz)].
Proof. exact: c_logicals_pauli. Qed.

(* set_logical_ops_xz accepts only valid operators, and they are the ones that are returned later *)
Theorem C28_set_xz c lx lz c' : c_ok c -> wf (c_n c) lx -> wf (c_n c) lz ->
  c_set_logical_ops_xz c lx lz true = Some c' ->
  [/\ c_ok c', c_get_logical_ops c' false = Some (bdiag (c_n c) (c_n c) lx lz),
      size lx = c_dimension c, size lz = c_dimension c
    & logical_basis (c_n c) (c_dimension c) (css_mat (c_n c) (c_x c) (c_z c)) (bdiag (c_n c) (c_n c) lx lz)].
Proof. exact: set_xz_ok. Qed.

(* C23 for CSS codes: the stabilizers generate the centre, and agree with those of the same matrix as a QuditCode *)
Theorem C23_css_stabilizers c recompute canonicalized v : c_ok c ->
  span (c_n c + c_n c) (c_get_stabilizer_ops c recompute canonicalized).1 v <->
  central (c_n c) (css_mat (c_n c) (c_x c) (c_z c)) v.
Proof.
case=> okq wX wW _ _; rewrite (proj1 (c_stab_q recompute canonicalized wX wW)).
have [ws e _ _ _] := stab_ops_ok recompute canonicalized okq; have [wA _ _ _ _] := okq.
by move: v; apply/center_span.
Qed.

(* C30: gauge operators exist, number 2g, are dual, commute with stabilizers and logical operators, and generate the gauge
   group together with the stabilizers *)
Theorem C30_css_gauge_ops c : c_ok c -> c_gauge c = None ->
  let n := c_n c in let A := css_mat n (c_x c) (c_z c) in
  exists G L, [/\ c_get_gauge_ops c = Some G, c_get_logical_ops c false = Some L,
    dual_pairs n (c_gauge_dimension c) G,
    forall r v, r \in (c_get_stabilizer_ops c false false).1 ++ L -> v \in G -> symp n r v = 0
  & forall v, span (n + n) ((c_get_stabilizer_ops c false false).1 ++ G) v <-> span (n + n) A v].
Proof. exact: c_gauge_ok. Qed.

(* for (non-CSS) subsystem codes: whenever the logical operators of the code and of its dual code are right *)
Theorem C30_qudit_gauge_ops_partial (c : qcode F) (d : qcode F) L G : q_ok c -> q_sub c -> q_gauge c = None ->
  let n := q_n c in
  get_logical_ops c = Some L -> logical_basis n (q_dimension c) (q_mat c) L ->
  q_dual c = Some d -> get_logical_ops d = Some G -> logical_basis n (q_dimension d) (q_mat d) G ->
  [/\ q_get_gauge_ops c = Some G, dual_pairs n (q_gauge_dimension c) G,
    forall r v, r \in (get_stabilizer_ops c false false).1 ++ L -> v \in G -> symp n r v = 0
  & forall v, span (n + n) ((get_stabilizer_ops c false false).1 ++ G) v <-> span (n + n) (q_mat c) v].
Proof. exact: q_gauge_ok. Qed.
End Props.

(* C27 is false.  For some (non-CSS) subsystem codes an exception is raised (sub_b), and for others the returned operators
   do not commute with the gauge operators (sub_a) or with each other (sub_c) *)
Theorem C27_exception_refuted : exists c : qcode [fieldType of 'F_2], q_ok c /\ get_logical_ops c = None.
Proof.
exists sub_b; split; first exact: q_ok_mk.
apply: is_none; by vm_compute.
Qed.

Theorem C27_gauge_refuted : exists (c : qcode [fieldType of 'F_2]) L, [/\ q_ok c, get_logical_ops c = Some L &
  exists r l, [/\ r \in q_mat c, l \in L & symp (q_n c) r l <> 0]].
Proof.
have [L e h] : exists2 L, get_logical_ops sub_a = Some L &
    has (fun r => has (fun l => symp_fold 2 r l != 0) L) (q_mat sub_a) by apply: some_with; vm_compute.
have [r rA /hasP [l lL nz]] := hasP h.
exists sub_a, L; split; [exact: q_ok_mk | exact: e |].
exists r, l; split; [exact: rA | exact: lL | apply/eqP; rewrite -symp_foldE; exact: nz].
Qed.

Theorem C27_pairs_refuted : exists (c : qcode [fieldType of 'F_2]) L, [/\ q_ok c, get_logical_ops c = Some L,
  (forall r l, r \in q_mat c -> l \in L -> symp (q_n c) r l = 0) & ~ dual_pairs (q_n c) (q_dimension c) L].
Proof.
have [L e h] : exists2 L, get_logical_ops sub_c = Some L &
    [&& all (fun r => all (fun l => symp_fold 3 r l == 0) L) (q_mat sub_c), q_dimension sub_c == 2%N
      & symp_fold 3 (nth [::] L 0%N) (nth [::] L 1%N) != 0] by apply: some_with; vm_compute.
have [/allP h1 /eqP ek nz] := and3P h.
exists sub_c, L; split; [exact: q_ok_mk | exact: e | |].
- move=> r l rA lL; have /allP h2 := h1 r rA; have /eqP := h2 l lL; by rewrite symp_foldE.
- rewrite ek; case=> _ _ hp; have e0 := hp 0%N 1%N isT isT; rewrite subrr in e0.
  by move: nz; rewrite symp_foldE e0 eqxx.
Qed.

(* C73: set_logical_ops of a CSS code, with validation, accepts operators which are not of X type and Z type; afterwards
   get_logical_ops(Pauli.X) returns a row of zeros, i.e. the identity instead of a logical operator *)
Theorem C73_set_logical_ops_refuted : exists (c : csscode [fieldType of 'F_2]) ops c',
  [/\ c_ok c, wf (c_n c + c_n c) ops, c_set_logical_ops c ops true = Some c' & c_dimension c' = 1%N]
  /\ c_get_logical_ops_pauli c' true = Some [:: [:: 0; 0]].
Proof.
set ops := b2 [:: [:: 0;0; 1;0]; [:: 1;0; 0;0]]%N.
have h : if c_set_logical_ops z2_code ops true is Some c' then
    (c_dimension c' == 1%N) && (c_get_logical_ops_pauli c' true == Some [:: [:: 0; 0]]) else false by vm_compute.
exists z2_code, ops; move: h; case: c_set_logical_ops => // c' /andP [/eqP e1 /eqP e2]; exists c'.
by split=> //; split=> //; apply: c_ok_mk.
Qed.

(* non-vacuity *)
(* the Bacon-Shor code as a QuditCode meets the hypotheses of C30_qudit_gauge_ops_partial *)
Definition comm_b (F : fieldType) n (A L : seq (seq F)) := all (fun r => all (fun l => symp_fold n r l == 0) L) A.
Definition dual_b (F : fieldType) n k (L : seq (seq F)) := [&& size L == (k + k)%N, wf (n + n) L &
  all (fun i => all (fun j => symp_fold n (nth [::] L i) (nth [::] L j) == (j == i + k)%N%:R - (i == j + k)%N%:R)
    (iota 0 (k + k))) (iota 0 (k + k))].
Lemma logical_basisP (F : fieldType) n k (A L : seq (seq F)) : dual_b n k L && comm_b n A L -> logical_basis n k A L.
Proof.
case/andP=> /and3P [/eqP sL wL /allP h] /allP h2; split.
  split=> // i j hi hj; apply/eqP; rewrite -symp_foldE.
  have /h /allP h' : i \in iota 0 (k + k) by rewrite mem_iota add0n.
  by apply: h'; rewrite mem_iota add0n.
by move=> r l /h2 /allP h3 /h3 /eqP; rewrite symp_foldE.
Qed.
Definition bacon_shor_q := mkq 4 (b2
  [:: [:: 1;1;0;0; 0;0;0;0]; [:: 0;0;1;1; 0;0;0;0]; [:: 0;0;0;0; 1;0;1;0]; [:: 0;0;0;0; 0;1;0;1]]%N) None.
Example ex_C30_qudit : q_ok bacon_shor_q /\ q_sub bacon_shor_q /\ exists L d G,
  [/\ get_logical_ops bacon_shor_q = Some L, logical_basis 4 (q_dimension bacon_shor_q) (q_mat bacon_shor_q) L,
      q_dual bacon_shor_q = Some d, get_logical_ops d = Some G & logical_basis 4 (q_dimension d) (q_mat d) G].
Proof.
split; first exact: q_ok_mk.
split; first by vm_compute.
have [L e1 h] : exists2 L, get_logical_ops bacon_shor_q = Some L &
    dual_b 4 (q_dimension bacon_shor_q) L && comm_b 4 (q_mat bacon_shor_q) L by apply: some_with; vm_compute.
pose P (d : qcode [fieldType of 'F_2]) := if get_logical_ops d is Some G then
    dual_b 4 (q_dimension d) G && comm_b 4 (q_mat d) G else false.
have [d e2 h'] : exists2 d, q_dual bacon_shor_q = Some d & P d by apply: (@some_with _ _ P); vm_compute.
have [G e3 h3] := some_with h'.
exists L, d, G; split; [exact: e1 | exact: logical_basisP h | exact: e2 | exact: e3 | exact: logical_basisP h3].
Qed.
Example ex_C28_steane : c_ok steane /\ (c_dimension steane == 1%N) && (c_sub steane == false).
Proof. by split; [apply: c_ok_mk | vm_compute]. Qed.
Example ex_C28_trits : c_ok trits /\ [&& c_sub trits, c_dimension trits == 2%N & c_gauge_dimension trits == 1%N].
Proof. by split; [apply: c_ok_mk | vm_compute]. Qed.
Example ex_C28_logicals : c_get_logical_ops steane false ==
  Some (bdiag 7 7 (b2 [:: [:: 0;0;1;0;1;1;0]]%N) (b2 [:: [:: 0;1;0;1;0;1;0]]%N)).
Proof. by vm_compute. Qed.
Example ex_C28_set : isSome (c_set_logical_ops_xz steane (b2 [:: [:: 1;1;1;1;1;1;1]]%N) (b2 [:: [:: 1;1;1;1;1;1;1]]%N) true).
Proof. by vm_compute. Qed.
Example ex_C30 : c_ok bacon_shor_css /\ [&& c_sub bacon_shor_css, c_gauge_dimension bacon_shor_css == 1%N
  & c_get_gauge_ops bacon_shor_css == Some (bdiag 4 4 (b2 [:: [:: 0;0;1;1]]%N) (b2 [:: [:: 1;0;1;0]]%N))].
Proof. by split; [apply: c_ok_mk | vm_compute]. Qed.

Print Assumptions C28_objects_ok.
Print Assumptions C28_css_logicals.
Print Assumptions C28_dimension.
Print Assumptions C28_by_type.
Print Assumptions C28_set_xz.
Print Assumptions C23_css_stabilizers.
Print Assumptions C30_css_gauge_ops.
Print Assumptions C30_qudit_gauge_ops_partial.
Print Assumptions C27_exception_refuted.
Print Assumptions C27_gauge_refuted.
Print Assumptions C27_pairs_refuted.
Print Assumptions C73_set_logical_ops_refuted.
