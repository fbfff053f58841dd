(* C71, C72: circuits for transversal automorphisms (qldpc/circuits.py). *)
From mathcomp Require Import all_ssreflect.
From Verif Require Import Circuits.
Set Implicit Arguments.
Unset Strict Implicit.
Unset Printing Implicit Defensive.

(* C71: for every permutation w of the qubits 0..n-1 the circuit of SWAPs exists and carries the content of qubit q to qubit w q,
   whatever the Pauli operator p on it *)
Theorem C71_swap_circuit n (w : nat -> nat) :
  (forall q, q < n -> w q < n) -> (forall q r, q < n -> r < n -> w q = w r -> q = r) ->
  exists2 c, swap_circuit n w = Some c & forall q p, q < n -> run c (q, p) = (w q, p).
Proof. exact: swap_perm_ok. Qed.

(* C72: let an automorphism move qubit q to qubit w q and permute the sectors of qubit q by t q.  The gates chosen for it map the
   Pauli operator of sector s on qubit q to the one of sector t q s, still on qubit q *)
Theorem C72_pauli_gates n w t aut (gs : seq lgate) q s :
  uniq gs -> block_aut n (size (sectors gs)) w t aut -> (gs = [::] -> forall q s, q < n -> s < 2 -> t q s = s) ->
  q < n -> s < size (sectors gs) ->
  run (pauli_circuit n aut gs) (q, nth PX (sectors gs) s) = (q, nth PX (sectors gs) (t q s)).
Proof. exact: gates_ok. Qed.

(* C71 and C72: every element a of the group generated by the allowed gates has a circuit, and the circuit sends the Pauli
   operator of column s * n + q of the instrumental code to the one of column a (s * n + q) *)
Theorem C72_transversal_circuit n (gs : seq lgate) swaps a :
  uniq gs -> gen_by (is_gen n gs swaps) a ->
  exists2 c, aut_circuit n a gs = Some c &
    forall q s, q < n -> s < size (sectors gs) ->
      run c (q, nth PX (sectors gs) s) = (a (s * n + q) %% n, nth PX (sectors gs) (a (s * n + q) %/ n)).
Proof. exact: group_circuit_ok. Qed.

(* non-vacuity *)
Example ex_C71 : swap_circuit 6 (fun q => nth 0 [:: 2; 4; 5; 3; 1; 0] q) = Some [:: Swap 0 2; Swap 0 5; Swap 1 4].
Proof. by vm_compute. Qed.
Example ex_C71_perm : (forall q, q < 6 -> nth 0 [:: 2; 4; 5; 3; 1; 0] q < 6) /\
  (forall q r, q < 6 -> r < 6 -> nth 0 [:: 2; 4; 5; 3; 1; 0] q = nth 0 [:: 2; 4; 5; 3; 1; 0] r -> q = r).
Proof. by split; [do 6 (case=> //) | move=> q r hq hr; move: q r hq hr; do 6 (case=> [|]; first by do 6 (case=> //)) ]. Qed.
(* a list of locations which is not a permutation is rejected *)
Example ex_C71_error : swap_circuit 3 (fun _ => 1) = None. Proof. by vm_compute. Qed.
(* two qubits, all local gates: first exchange sectors 0 and 1 of qubit 0, then sectors 1 and 2 of qubit 0, then the qubits *)
Definition ex_aut (x : nat) := swap_gen 2 0 (sector_gen 2 1 0 (sector_gen 2 0 0 x)).
Example ex_C72_gen : gen_by (is_gen 2 [:: LS; LH] true) ex_aut.
Proof.
apply: (@gen_mul _ (fun x => sector_gen 2 1 0 (sector_gen 2 0 0 x)) (swap_gen 2 0)) => //; last by left; split=> //; exists 0.
apply: (@gen_mul _ (fun x => sector_gen 2 0 0 x) (sector_gen 2 1 0)) => //; last by right; split=> //; exists 1, 0.
apply: (@gen_mul _ id (sector_gen 2 0 0)) => //; last by right; split=> //; exists 0, 0.
exact: gen_id.
Qed.
Example ex_C72 : aut_circuit 2 ex_aut [:: LS; LH] = Some [:: Loc C_ZYX [:: 0]; Swap 0 1].
Proof. by vm_compute. Qed.
Example ex_C72_single : gen_by (is_gen 2 [:: LSX] false) (sector_gen 2 0 1) /\
  aut_circuit 2 (sector_gen 2 0 1) [:: LSX] = Some [:: Loc SQRT_X [:: 1]].
Proof.
split; last by vm_compute.
by apply: (@gen_mul _ id (sector_gen 2 0 1)) => //; [apply: gen_id | right; split=> //; exists 0, 1].
Qed.
Example ex_C72_block : block_aut 2 3 (swap_loc 0 1) (fun q s => if q == 0 then nth 0 [:: 2; 0; 1] s else s) ex_aut.
Proof. by split; [do 2 (case=> //) | do 2 (case=> [|]; first by do 2 (case=> //)) | do 2 (case=> [|]; first by do 3 (case=> //))
  | do 2 (case=> [|]; first by do 3 (case=> [|]; first by do 3 (case=> //))) | do 2 (case=> [|]; first by do 3 (case=> //))]. Qed.

Print Assumptions C71_swap_circuit.
Print Assumptions C72_pauli_gates.
Print Assumptions C72_transversal_circuit.
