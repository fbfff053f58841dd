(* Encoding tableaus: theorems. *)
From mathcomp Require Import all_ssreflect all_algebra zify.
From Verif Require Import LinAlg RowReduce Classical ClassicalProofs Quantum QuantumProofs Css CssProofs CssGauge Product.
From Verif Require Import PropsClassical PropsQuantum PropsCss PropsProduct PropsSurface Tableau TableauProofs.
Set Implicit Arguments.
Unset Strict Implicit.
Unset Printing Implicit Defensive.
Import GRing.Theory.
Local Open Scope ring_scope.

(* a parity check matrix whose rows are not ordered by their pivots *)
Definition unordered := mkcode 3 (b2 [:: [:: 0;1;1]; [:: 1;1;0]]%N).

Section Props.
Variable F : fieldType.
Hypothesis qubits : 1 + 1 = 0 :> F.

(* C70 for stabilizer codes (CSS or not): no exception, and the tableau is a symplectic basis of logical operators (those
   of get_logical_ops), destabilizers and stabilizers *)
Theorem C70_stabilizer_codes (c : qcode F) : q_ok c -> q_sub c = false ->
  exists xs zs L, [/\ encoding_tableau c = Some (xs, zs), get_logical_ops c = Some L,
    encodes (q_n c) (q_dimension c) 0 (q_mat c) xs zs, L = take (q_dimension c) xs ++ take (q_dimension c) zs
    & drop (q_dimension c) zs = (get_stabilizer_ops c false true).1].
Proof. exact: stabilizer_tableau_ok. Qed.

(* C70 for CSS codes, including subsystem codes: an exact condition for a result, and correctness of every result *)
Theorem C70_css_exact (c : csscode F) : c_ok c -> c_gauge c = None ->
  (exists t, css_encoding_tableau c = Some t) <-> unit_pivots (c_get_stabilizer_ops c false true).1.
Proof. by move=> ok gN; have [h _] := css_tableau_ok qubits ok gN. Qed.

Theorem C70_css_sound (c : csscode F) xs zs : c_ok c -> c_gauge c = None -> css_encoding_tableau c = Some (xs, zs) ->
  encodes (c_n c) (c_dimension c) (c_gauge_dimension c) (css_mat (c_n c) (c_x c) (c_z c)) xs zs /\
  drop (c_dimension c + c_gauge_dimension c) zs = (c_get_stabilizer_ops c false true).1.
Proof. by move=> ok gN; have [_ h] := css_tableau_ok qubits ok gN; apply: h. Qed.

(* the condition holds unless stabilizers of a subsystem code have been set by a constructor *)
Theorem C70_css_codes (c : csscode F) : c_ok c -> c_gauge c = None -> c_sub c = false \/ c_stab c = None ->
  exists xs zs, css_encoding_tableau c = Some (xs, zs) /\
    encodes (c_n c) (c_dimension c) (c_gauge_dimension c) (css_mat (c_n c) (c_x c) (c_z c)) xs zs.
Proof.
move=> ok gN h; have [okq wX wW _ _] := ok.
have [[xs zs] e] : exists t, css_encoding_tableau c = Some t.
  apply/C70_css_exact => //; rewrite (c_stab_q false true wX wW).1; apply: stab_ops_pivots okq _.
  by case: h => h; [left | right; right].
by exists xs, zs; split=> //; have [] := C70_css_sound ok gN e.
Qed.

(* subsystem codes that are not CSS codes, under the condition that get_logical_ops and get_gauge_ops return valid
   operators (which is not always so: C27_exception_refuted, C27_gauge_refuted, C27_pairs_refuted) *)
Theorem C70_subsystem_partial (c : qcode F) L G : q_ok c ->
  let c1 := (get_stabilizer_ops c false true).2 in let S := (get_stabilizer_ops c false true).1 in
  get_logical_ops c1 = Some L -> logical_basis (q_n c) (q_dimension c) (q_mat c) L ->
  q_get_gauge_ops c1 = Some G -> dual_pairs (q_n c) (q_gauge_dimension c) G ->
  (forall v, v \in G -> span (q_n c + q_n c) (q_mat c) v) ->
  ((exists t, encoding_tableau c = Some t) <-> unit_pivots S) /\
  (forall xs zs, encoding_tableau c = Some (xs, zs) ->
     encodes (q_n c) (q_dimension c) (q_gauge_dimension c) (q_mat c) xs zs /\
     drop (q_dimension c + q_gauge_dimension c) zs = S).
Proof. exact: subsystem_tableau_ok. Qed.
End Props.

Lemma F2_two : 1 + 1 = 0 :> 'F_2.
Proof. by apply/eqP; vm_compute. Qed.

(* C70 is false: the stabilizers set by the constructor of SHPCode are accepted as canonical by _is_canonicalized although
   they are not reduced, and stim rejects the operators *)
Theorem C70_refuted : exists (a : ccode [fieldType of 'F_2]) c, [/\ code_ok a, shp a a true = Some c, c_ok c & css_encoding_tableau c = None].
Proof.
have ok : code_ok unordered by split.
have [c [e okc _ _ _]] := C44_shp_code true ok ok.
exists unordered, c; split; [exact: ok | exact: e | exact: okc |].
have h : if shp unordered unordered true is Some c then ~~ isSome (css_encoding_tableau c) else false by vm_compute.
by rewrite e in h; move: h; case: (css_encoding_tableau c).
Qed.

(* non-vacuity *)
Example ex_C70_five : q_ok five_qubit /\ q_sub five_qubit = false /\ isSome (encoding_tableau five_qubit).
Proof. by split; [apply: q_ok_mk | split; vm_compute]. Qed.
Example ex_C70_css : [/\ c_ok bacon_shor_css, c_gauge bacon_shor_css = None, c_sub bacon_shor_css, c_stab bacon_shor_css = None
  & c_gauge_dimension bacon_shor_css = 1%N].
Proof. by split. Qed.
(* a subsystem code as a QuditCode: the hypotheses of C70_subsystem_partial hold *)
Definition bs_logs := b2 [:: [:: 0;1;0;1; 0;0;1;1]; [:: 0;0;0;0; 0;0;1;1]]%N.
Definition bs_gauge := b2 [:: [:: 0;0;1;1; 1;0;1;0]; [:: 0;0;0;0; 1;0;1;0]]%N.
Lemma dual_pair1 n (A : seq (seq [fieldType of 'F_2])) : size A = 2%N -> wf (n + n) A ->
  pair_table n A A == b2 [:: [:: 0;1]; [:: 1;0]]%N -> dual_pairs n 1 A.
Proof.
move=> sA wA e; split=> // i j li lj.
have w : wf (size A) (b2 [:: [:: 0;1]; [:: 1;0]]%N) by rewrite sA.
have h := proj1 (pair_tableP wA wA (esym sA : size (b2 [:: [:: 0;1]; [:: 1;0]]%N) = size A) w) e.
rewrite h ?sA //; apply/eqP; move: i j li lj {h e}; by case=> [|[|i]] // [|[|j]] // _ _; vm_compute.
Qed.
Example ex_C70_subsystem :
  [/\ q_ok bacon_shor, get_logical_ops (get_stabilizer_ops bacon_shor false true).2 = Some bs_logs
      /\ q_get_gauge_ops (get_stabilizer_ops bacon_shor false true).2 = Some bs_gauge,
      logical_basis (q_n bacon_shor) (q_dimension bacon_shor) (q_mat bacon_shor) bs_logs,
      dual_pairs (q_n bacon_shor) (q_gauge_dimension bacon_shor) bs_gauge
    & forall v, v \in bs_gauge -> span (q_n bacon_shor + q_n bacon_shor) (q_mat bacon_shor) v].
Proof.
have ek : q_dimension bacon_shor = 1%N by vm_compute.
have eg : q_gauge_dimension bacon_shor = 1%N by vm_compute.
rewrite ek eg; split.
- exact: q_ok_mk.
- by split; apply/eqP; vm_compute.
- split; first by apply: dual_pair1 => //; vm_compute.
  have w1 : wf (4 + 4) (q_mat bacon_shor) by []. have w2 : wf (4 + 4) bs_logs by [].
  have := proj1 (pair_tableP w1 w2 (T := zerol [fieldType of 'F_2] 4 2) erefl erefl).
  move=> h r l /(nthP [::]) [i li <-] /(nthP [::]) [j lj <-]; rewrite h ?ent_zerol //; by vm_compute.
- by apply: dual_pair1 => //; vm_compute.
move=> v; rewrite !inE => /orP [] /eqP ->.
  exists (head [::] (b2 [:: [:: 0;1;1;0]]%N)); have := @vmulm_comb _ 8 (head [::] (b2 [:: [:: 0;1;1;0]]%N)) (q_mat bacon_shor) erefl.
  by congr (is_comb _ _ _ _); apply/eqP; vm_compute.
exists (head [::] (b2 [:: [:: 0;0;1;0]]%N)); have := @vmulm_comb _ 8 (head [::] (b2 [:: [:: 0;0;1;0]]%N)) (q_mat bacon_shor) erefl.
by congr (is_comb _ _ _ _); apply/eqP; vm_compute.
Qed.
(* stabilizers set by a constructor for which the condition holds *)
Example ex_C70_shp : if shp (mkcode 3 (b2 [:: [:: 0;1;1]; [:: 1;0;1]]%N)) (mkcode 3 (b2 [:: [:: 0;1;1]; [:: 1;0;1]]%N)) true is Some c
  then isSome (css_encoding_tableau c) && isSome (c_stab c) else false.
Proof. by vm_compute. Qed.

Print Assumptions C70_stabilizer_codes.
Print Assumptions C70_css_exact.
Print Assumptions C70_css_sound.
Print Assumptions C70_css_codes.
Print Assumptions C70_subsystem_partial.
Print Assumptions C70_refuted.
