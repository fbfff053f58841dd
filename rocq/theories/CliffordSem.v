(* The action of the gates on Pauli strings in Clifford.v is conjugation by the matrices of the gates, up to phase. *)
From mathcomp Require Import all_ssreflect all_algebra.
From Verif Require Import LinAlg RowReduce Classical Quantum Clifford.
Set Implicit Arguments.
Unset Strict Implicit.
Unset Printing Implicit Defensive.
Import GRing.Theory.
Local Open Scope ring_scope.

(* ====================================================================== specification *)
(* Gaussian integers and matrices of them *)
Definition gint := (int * int)%type.
Definition gadd (a b : gint) : gint := (a.1 + b.1, a.2 + b.2).
Definition gmul (a b : gint) : gint := (a.1 * b.1 - a.2 * b.2, a.1 * b.2 + a.2 * b.1).
Definition g0 : gint := (0, 0).
Definition g1 : gint := (1, 0).
Definition gm1 : gint := (-1, 0).
Definition gi : gint := (0, 1).
Definition gmi : gint := (0, -1).
Definition gmat := seq (seq gint).
Definition gcol (B : gmat) (j : nat) : seq gint := [seq nth g0 r j | r <- B].
Definition gmm (A B : gmat) : gmat :=
  [seq [seq foldr gadd g0 [seq gmul p.1 p.2 | p <- zip r (gcol B j)] | j <- iota 0 (size (head [::] B))] | r <- A].
Definition gkron (A B : gmat) : gmat := flatten [seq [seq flatten [seq [seq gmul x y | y <- s] | x <- r] | s <- B] | r <- A].
Definition gscale (c : gint) (A : gmat) : gmat := [seq [seq gmul c x | x <- r] | r <- A].

(* the Pauli operator X^x Z^z of one qubit, and the matrices of the gates (that of H without the factor 1/sqrt 2) *)
Definition pauli (x z : bool) : gmat :=
  gmm (if x then [:: [:: g0; g1]; [:: g1; g0]] else [:: [:: g1; g0]; [:: g0; g1]])
      (if z then [:: [:: g1; g0]; [:: g0; gm1]] else [:: [:: g1; g0]; [:: g0; g1]]).
Definition mat_H : gmat := [:: [:: g1; g1]; [:: g1; gm1]].
Definition mat_S : gmat := [:: [:: g1; g0]; [:: g0; gi]].
(* the first tensor factor is the control *)
Definition mat_CX : gmat :=
  [:: [:: g1; g0; g0; g0]; [:: g0; g1; g0; g0]; [:: g0; g0; g0; g1]; [:: g0; g0; g1; g0]].
(* U P U^-1 = P' up to a phase *)
Definition conjugates (U P P' : gmat) : Prop := exists2 c, c \in [:: g1; gm1; gi; gmi] & gmm U P = gscale c (gmm P' U).

(* the Pauli operator at qubit j of a string [x|z] of n qubits *)
Definition at_qubit (n : nat) (r : seq 'F_2) (j : nat) : gmat := pauli (nth 0 r j != 0) (nth 0 r (n + j) != 0).
Definition addressed (g : gate) : seq nat := match g with GH q => [:: q] | GS q => [:: q] | GCX a b => [:: a; b] end.

(* ============================================================================= proofs *)
Lemma bits2 (x : 'F_2) : x = 0 \/ x = 1.
Proof. by case: x => [[|[|x]]] // h; [left | right]; apply/val_inj. Qed.

Ltac phase c := exists c; [by [] | by vm_compute].
Ltac phases := first [phase g1 | phase gm1 | phase gi | phase gmi].

Theorem gate_act_sem n g (r : seq 'F_2) : gate_ok n g -> size r = (n + n)%N ->
  let r' := gate_act n g r in
  [/\ size r' = (n + n)%N, forall j, (j < n)%N -> j \notin addressed g -> at_qubit n r' j = at_qubit n r j &
  match g with
  | GH q => conjugates mat_H (at_qubit n r q) (at_qubit n r' q)
  | GS q => conjugates mat_S (at_qubit n r q) (at_qubit n r' q)
  | GCX a b => conjugates mat_CX (gkron (at_qubit n r a) (at_qubit n r b)) (gkron (at_qubit n r' a) (at_qubit n r' b))
  end].
Proof.
move=> ok sr r'; split; first exact: size_gate.
- move=> j lj na; rewrite /r' /at_qubit; case: (g) na => [q | q | a b] /=; rewrite !inE tab_x // tab_z // => na.
  + by rewrite (negbTE na).
  + by rewrite (negbTE na).
  by case/norP: na => /negbTE -> /negbTE ->.
rewrite /r' /at_qubit; case: g ok {r'} => [q | q | a b] /=.
- move=> lq; rewrite tab_x // tab_z // eqxx.
  by case: (bits2 (nth 0 r q)) => ->; case: (bits2 (nth 0 r (n + q))) => ->; rewrite ?eqxx; phases.
- move=> lq; rewrite tab_x // tab_z // eqxx.
  by case: (bits2 (nth 0 r q)) => ->; case: (bits2 (nth 0 r (n + q))) => ->; phases.
case/and3P => la lb ab; have ba : (b == a) = false by rewrite eq_sym (negbTE ab).
rewrite (tab_x _ _ la) (tab_x _ _ lb) (tab_z _ _ la) (tab_z _ _ lb) !eqxx (negbTE ab) ba.
by case: (bits2 (nth 0 r a)) => ->; case: (bits2 (nth 0 r (n + a))) => ->;
  case: (bits2 (nth 0 r b)) => ->; case: (bits2 (nth 0 r (n + b))) => ->; phases.
Qed.
