(* Property C93: equivalence and equality of quantum codes. *)
From mathcomp Require Import all_ssreflect all_algebra.
From Verif Require Import LinAlg RowReduce Classical ClassicalProofs Quantum QuantumProofs QuantumDist Css CssProofs QuantumEquiv PropsQuantum PropsCss.
Set Implicit Arguments.
Unset Strict Implicit.
Unset Printing Implicit Defensive.
Import GRing.Theory.
Local Open Scope ring_scope.

Section Props.
Variable F : fieldType.

(* QuditCode.equiv and CSSCode.equiv return True exactly if the checks of the codes generate the same group; the codes can be
   of either class *)
Theorem C93_equiv (a b : qobj F) : o_ok a -> o_ok b ->
  (abs_equiv a b <-> same_group (o_len a) (o_len b) (o_mat a) (o_mat b)) /\
  (css_equiv a b <-> same_group (o_len a) (o_len b) (o_mat a) (o_mat b)).
Proof. by move=> ha hb; split; [exact: abs_equivP | exact: css_equivP]. Qed.

(* then they have the same stabilizers, number of logical qudits and distance *)
Theorem C93_parameters (a b : qobj F) : o_ok a -> o_ok b -> css_equiv a b ->
  [/\ o_dim a = o_dim b, forall d, is_qdist (o_len a) (o_mat a) d <-> is_qdist (o_len b) (o_mat b) d
    & forall v, central (o_len a) (o_mat a) v <-> central (o_len b) (o_mat b) v].
Proof. by move=> ha hb /(css_equivP ha hb); exact: equiv_params. Qed.

(* the expression a == b, for objects of the class QuditCode and of the classes derived from CSSCode: equality of the check
   matrices, and, among CSS codes, of the classes *)
Theorem C93_eq cssp (x y : pyobj F) : cssp != [::] -> py_std cssp x -> py_std cssp y -> py_eq x y <-> eq_spec x y.
Proof. exact: py_eqP. Qed.

Theorem C93_eq_equivalence cssp : cssp != [::] ->
  [/\ forall x : pyobj F, py_std cssp x -> py_eq x x, forall x y : pyobj F, py_std cssp x -> py_std cssp y -> py_eq x y -> py_eq y x
    & forall x y z : pyobj F, py_std cssp x -> py_std cssp y -> py_std cssp z -> py_eq x y -> py_eq y z -> py_eq x z].
Proof. exact: eq_equivalence. Qed.

Theorem C93_eq_equiv cssp (x y : pyobj F) : cssp != [::] -> py_std cssp x -> py_std cssp y -> o_ok (p_obj x) -> o_ok (p_obj y) ->
  py_eq x y -> abs_equiv (p_obj x) (p_obj y) /\ css_equiv (p_obj x) (p_obj y).
Proof. exact: eq_equiv. Qed.
End Props.

(* the code with the checks XXXX and ZZZZ *)
Definition ones4 : seq (seq 'F_2) := [:: [:: 1; 1; 1; 1]].
Definition c422 : csscode [fieldType of 'F_2] := mkcss 4 ones4 ones4 None.
(* the same code, given by one parity check matrix *)
Definition q422 : qcode [fieldType of 'F_2] := mkq 4 (css_mat 4 ones4 ones4) None.
(* the same code with a redundant check *)
Definition c422r : csscode [fieldType of 'F_2] := mkcss 4 (ones4 ++ ones4) ones4 None.
Lemma ok422 : [/\ o_ok (Sep c422), o_ok (Plain q422) & o_ok (Sep c422r)].
Proof. by split; [exact: C28_objects_ok | exact: C22_objects_ok | exact: C28_objects_ok]. Qed.

(* the class of SteaneCode is derived from CSSCode, and so on: a code of such a class is not equal to the CSSCode with the same
   checks *)
Theorem C93_eq_class_refuted : exists (c : csscode [fieldType of 'F_2]) k, o_ok (Sep c) /\
  py_eq (PyObj [:: 0%N] (Sep c)) (PyObj [:: 0%N; k] (Sep c)) = false.
Proof. by exists c422, 7%N; split; [have [] := ok422 | vm_compute]. Qed.

(* a CSSCode is not equal to the QuditCode with the same parity check matrix *)
Theorem C93_eq_qudit_refuted : exists (c : csscode [fieldType of 'F_2]) (d : qcode [fieldType of 'F_2]),
  [/\ o_ok (Sep c), o_ok (Plain d), o_len (Sep c) = o_len (Plain d) /\ o_mat (Sep c) = o_mat (Plain d)
    & py_eq (PyObj [:: 0%N] (Sep c)) (PyObj [::] (Plain d)) = false /\ py_eq (PyObj [::] (Plain d)) (PyObj [:: 0%N] (Sep c)) = false].
Proof.
exists c422, q422; have [h1 h2 _] := ok422; split; [exact: h1 | exact: h2 | split; reflexivity | split; by vm_compute].
Qed.

(* with further classes derived from QuditCode, == is not symmetric *)
Theorem C93_eq_symmetric_refuted : exists x y : pyobj [fieldType of 'F_2], [/\ o_ok (p_obj x), o_ok (p_obj y),
  py_ok [:: 0%N] x /\ py_ok [:: 0%N] y, py_eq x y & ~~ py_eq y x].
Proof.
exists (PyObj [:: 1%N] (Plain q422)), (PyObj [:: 0%N] (Sep c422)); have [h1 h2 _] := ok422.
split; [exact: h2 | exact: h1 | split; by vm_compute | by vm_compute | by vm_compute].
Qed.

(* the hypotheses can be met: codes of different classes that are equivalent, codes that are not *)
Example C93_ex : [/\ css_equiv (Sep c422) (Plain q422), css_equiv (Sep c422) (Sep c422r), abs_equiv (Sep c422r) (Sep c422),
  ~~ css_equiv (Sep c422) (Sep (mkcss 4 ones4 [:: [:: 1; 1; 0; 0]] None)) &
  py_eq (PyObj [:: 0%N] (Sep c422)) (PyObj [:: 0%N] (Sep c422)) && ~~ py_eq (PyObj [:: 0%N] (Sep c422)) (PyObj [:: 0%N] (Sep c422r))].
Proof. by split; vm_compute. Qed.

Print Assumptions C93_equiv.
Print Assumptions C93_parameters.
Print Assumptions C93_eq.
Print Assumptions C93_eq_equivalence.
Print Assumptions C93_eq_equiv.
Print Assumptions C93_eq_class_refuted.
Print Assumptions C93_eq_qudit_refuted.
Print Assumptions C93_eq_symmetric_refuted.
