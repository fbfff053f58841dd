(* C103: circuit constructors are for qubit codes (qldpc/circuits.py). *)
From mathcomp Require Import all_ssreflect.
From Verif Require Import QubitOnly.
Set Implicit Arguments.
Unset Strict Implicit.
Unset Printing Implicit Defensive.

(* the two functions that do not hand their code on *)
Definition works_itself (f : fn) : Prop := f = EncodingTableau \/ f = TransversalGroup.

(* f gets to work on a code over GF(q) other than GF(2) exactly if it is one of the two and the code is given by keyword.
   Missing from the full statement: that case, for which it is false *)
Theorem C103_qubits_only_partial f c q : bind c = Some (Code q) -> q <> 2 ->
  run f c = Work (Code q) /\ args c = [::] /\ works_itself f \/ run f c = ValueErr /\ (args c = [::] -> ~ works_itself f).
Proof.
case: c => [a k ks]; rewrite /bind /=; case: a => [|v a]; case: k => [w|] // [->] /eqP /negbTE q2.
  by case: f; rewrite /run /get_transversal_circuit /get_transversal_circuits /get_logical_tableau /get_encoder_and_decoder
    /get_transversal_ops /get_transversal_automorphism_group /get_encoding_circuit /get_encoding_tableau /restrict_to_qubits
    /with_code /bind /= ?q2 /=; (by left; split=> //; split=> //; (left + right)) || (by right; split=> // _ []).
by right; split=> //; case: f; rewrite /run /get_transversal_circuit /get_transversal_circuits /get_logical_tableau
  /get_encoder_and_decoder /get_transversal_ops /get_transversal_automorphism_group /get_encoding_circuit /get_encoding_tableau
  /restrict_to_qubits /with_code /bind /= ?q2 /=.
Qed.

(* a qubit code is never refused (unless another positional argument is a code that is not for qubits) *)
Theorem C103_qubits f c : bind c = Some (Code 2) -> (forall q, List.In (Code q) (args c) -> q = 2) -> run f c = Work (Code 2).
Proof.
case: c => [a k ks] hb /= h.
have ha : has not_qubits a = false.
  elim: a h {hb} => [|v a IH] //= h; rewrite IH; last by move=> q hq; apply: h; right.
  by case: v h => [q|] //= h; rewrite (h q (or_introl erefl)).
move: hb ha; rewrite /bind /=; case: a {h} => [|v a]; case: k => [w|] // [->] ha; case: f => //;
rewrite /run /get_transversal_circuits /get_logical_tableau /get_encoder_and_decoder /get_transversal_ops
  /get_transversal_automorphism_group /get_encoding_circuit /get_encoding_tableau /restrict_to_qubits /args ha //.
Qed.

(* a qutrit code given as code=... is accepted *)
Theorem C103_keyword_refuted : exists f c q, [/\ bind c = Some (Code q), q <> 2 & run f c = Work (Code q)].
Proof. by exists TransversalGroup, (Call [::] (Some (Code 3)) [::]), 3. Qed.

(* non-vacuity *)
Example ex_C103_positional : run LogicalTableau (Call [:: Code 3; Other] None [::]) = ValueErr.
Proof. by []. Qed.
Example ex_C103_keyword : run LogicalTableau (Call [::] (Some (Code 3)) [:: Other]) = ValueErr /\
  run EncodingTableau (Call [::] (Some (Code 3)) [::]) = Work (Code 3).
Proof. by []. Qed.
Example ex_C103_qubits : run TransversalCircuit (Call [:: Code 2; Other] None [:: Other]) = Work (Code 2) /\
  run TransversalOps (Call [::] (Some (Code 2)) [::]) = Work (Code 2).
Proof. by []. Qed.

Print Assumptions C103_qubits_only_partial.
Print Assumptions C103_qubits.
Print Assumptions C103_keyword_refuted.
