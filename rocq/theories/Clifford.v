(* Clifford circuits on qubits: the action of H, S and CX gates on Pauli strings is a symplectic map. *)
From mathcomp Require Import all_ssreflect all_algebra zify ring.
From Verif Require Import LinAlg RowReduce Classical ClassicalProofs ClassicalProofs2 Symplectic Quantum QuantumProofs
  QuantumPerm QuantumStab QuantumLogs QuantumOps.
Set Implicit Arguments.
Unset Strict Implicit.
Unset Printing Implicit Defensive.
Import GRing.Theory.
Local Open Scope ring_scope.

(* common.py:1377-1413 passes the circuit to stim, which computes the image of every Pauli string.  Model of that external
   computation for circuits of the generators H, S, CX of the Clifford group; signs are dropped, as in common.py. *)
Inductive gate := GH of nat | GS of nat | GCX of nat & nat.

(* gates address existing qubits, CX two different ones *)
Definition gate_ok (n : nat) (g : gate) : bool :=
  match g with GH q => q < n | GS q => q < n | GCX a b => [&& a < n, b < n & a != b] end%N.

Section Clifford.
Variable F : fieldType.
Notation vec := (seq F).

Definition tab (n : nat) (f g : nat -> F) : vec := mkseq f n ++ mkseq g n.
Definition gate_act (n : nat) (g : gate) (r : vec) : vec :=
  let x j := nth 0 r j in let z j := nth 0 r (n + j) in
  match g with
  | GH q => tab n (fun j => if j == q then z j else x j) (fun j => if j == q then x j else z j)
  | GS q => tab n x (fun j => if j == q then z j + x j else z j)
  | GCX a b => tab n (fun j => if j == b then x j + x a else x j) (fun j => if j == a then z j + z b else z j)
  end.
Definition circuit_act (n : nat) (gs : seq gate) (r : vec) : vec := foldl (fun r g => gate_act n g r) r gs.

Lemma size_tab n f g : size (tab n f g) = (n + n)%N.
Proof. by rewrite size_cat !size_mkseq. Qed.
Lemma tab_x n f g j : (j < n)%N -> nth 0 (tab n f g) j = f j.
Proof. by move=> lj; rewrite nth_cat size_mkseq lj nth_mkseq. Qed.
Lemma tab_z n f g j : (j < n)%N -> nth 0 (tab n f g) (n + j) = g j.
Proof. by move=> lj; rewrite nth_cat size_mkseq ltnNge leq_addr /= addKn nth_mkseq. Qed.

Lemma tab_ext n f g (r : vec) : size r = (n + n)%N -> (forall j, (j < n)%N -> f j = nth 0 r j) ->
  (forall j, (j < n)%N -> g j = nth 0 r (n + j)) -> tab n f g = r.
Proof.
move=> sr hx hz; apply: (@eq_from_nth _ 0); rewrite size_tab // => i li.
have [lt | ge] := ltnP i n; first by rewrite tab_x ?hx.
by rewrite -(subnKC ge) tab_z ?hz //; lia.
Qed.

Lemma size_gate n g r : size (gate_act n g r) = (n + n)%N.
Proof. by case: g => *; rewrite size_tab. Qed.

Lemma gate_symp n g : (1 + 1 : F) = 0 -> gate_ok n g -> symp_map n (gate_act n g).
Proof.
move=> ch2 ok; have dbl (x : F) : x + x = 0 by rewrite -[x]mul1r -mulrDl ch2 mul0r.
split=> [u _ | u v su sv | a u su | u v su sv]; first exact: size_gate.
- have e j : nth 0 (vadd u v) j = nth 0 u j + nth 0 v j by rewrite nth_vadd // su.
  case: g ok => [q | q | a b] ok; apply: tab_ext; try (by rewrite size_vadd !size_tab); move=> j lj;
    (rewrite [RHS]nth_vadd; last by rewrite !size_tab); rewrite ?tab_z ?tab_x //; try case: ifP => _; rewrite !e // addrACA //.
- have e j : nth 0 (vscale a u) j = a * nth 0 u j by rewrite nth_vscale.
  case: g ok => [q | q | c b] ok; apply: tab_ext; rewrite ?size_vscale ?size_tab // => j lj;
    rewrite [RHS]nth_vscale ?tab_z ?tab_x //; try case: ifP => _; rewrite !e // mulrDr //.
rewrite /symp; case: g ok => [q | q | a b] /= ok.
- apply: eq_bigr => j _; rewrite !tab_z // !tab_x //; case: eqP => // _.
  set x := nth 0 u j; set z := nth 0 u _; set x' := nth 0 v j; set z' := nth 0 v _.
  by apply/eqP; rewrite -subr_eq0; have := dbl (z * x' - x * z') => <-; apply/eqP; ring.
- apply: eq_bigr => j _; rewrite !tab_z // !tab_x //; case: eqP => // _; ring.
case/and3P: ok => la lb /eqP nab.
pose x (r : vec) j := nth 0 r j; pose z (r : vec) j := nth 0 r (n + j).
pose T := x u a * z v b - z u b * x v a.
have -> : \sum_(j < n) (nth 0 u j * nth 0 v (n + j) - nth 0 u (n + j) * nth 0 v j) =
          \sum_(j < n) (nth 0 u j * nth 0 v (n + j) - nth 0 u (n + j) * nth 0 v j) +
          (\sum_(j < n | j == Ordinal la) T + \sum_(j < n | j == Ordinal lb) T).
  by rewrite !big_pred1_eq dbl addr0.
rewrite [X in _ + (X + _)]big_mkcond [X in _ + (_ + X)]big_mkcond -!big_split /=; apply: eq_bigr => j _.
rewrite !tab_z // !tab_x // -!val_eqE /= /T /x /z.
case: (j =P b :> nat) => [-> | nb].
  have r1 (p q r s t w : F) : (p + q) * r - s * (t + w) = p * r - s * t + (0 + (q * r - s * w)) by ring.
  by rewrite eqF; [exact: r1 | lia].
case: (j =P a :> nat) => [-> | na]; last by rewrite !addr0.
have r2 (p r r' s s' t : F) : p * (r + r') - (s + s') * t = p * r - s * t + (p * r' - s' * t + 0) by ring.
exact: r2.
Qed.

Lemma symp_map_comp n (f g : vec -> vec) : symp_map n f -> symp_map n g -> symp_map n (fun r => g (f r)).
Proof.
case=> f1 f2 f3 f4 [g1 g2 g3 g4]; split=> [u su | u v su sv | a u su | u v su sv].
- by rewrite g1 ?f1.
- by rewrite f2 // g2 ?f1.
- by rewrite f3 // g3 ?f1.
by rewrite g4 ?f1 // f4.
Qed.

Lemma symp_map_id n : symp_map n (fun r : vec => r).
Proof. by split. Qed.

Theorem circuit_symp n gs : (1 + 1 : F) = 0 -> all (gate_ok n) gs -> symp_map n (circuit_act n gs).
Proof.
move=> ch2; elim: gs => [|g gs IH] /=; first by move=> _; exact: symp_map_id.
case/andP=> ok oks; exact: (symp_map_comp (gate_symp ch2 ok) (IH oks)).
Qed.
End Clifford.
