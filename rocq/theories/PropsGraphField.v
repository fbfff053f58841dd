(* C102: the field of a Tanner graph (qldpc/codes/common.py, qldpc/codes/quantum.py). *)
From mathcomp Require Import all_ssreflect.
From Verif Require Import TannerGraph GraphField.
Set Implicit Arguments.
Unset Strict Implicit.
Unset Printing Implicit Defensive.

(* the entries are elements of GF(q) *)
Definition over (q : nat) (A : seq (seq nat)) : Prop := forall r v, r \in A -> v \in r -> v < q.
(* no zero row, no zero column *)
Definition no_zero_line (n : nat) (A : seq (seq nat)) : Prop :=
  (forall i, i < size A -> exists2 j, j < n & nth 0 (nth [::] A i) j <> 0) /\
  (forall j, j < n -> exists2 i, i < size A & nth 0 (nth [::] A i) j <> 0).

(* a matrix over GF(q) comes back from its graph over GF(q) (and as it was exactly if no row and no column is zero) *)
Theorem C102_classical q n A : is_order q -> over q A -> all (fun r => size r == n) A ->
  (from_graph (to_graph n (FieldArray q A)) = Ok (q, (size A, n, A)) <-> no_zero_line n A) /\
  (forall q' r, from_graph (to_graph n (FieldArray q A)) = Ok (q', r) -> q' = q).
Proof.
move=> hq hA hs; split; last by move=> q' r /from_graph_field [[->] _].
have hA' : all (all (fun v => v < q)) A by apply/allP => r hr; apply/allP => v; apply: hA.
apply: iff_trans (roundtrip_iff 0 hs); rewrite (from_to n hq hA').
by case: (graph_to_matrix _ _) => [r|]; split=> // [[->] | [->]].
Qed.

(* the same for parity check matrices of qudit codes *)
Theorem C102_qudit q n A g : is_order q -> over q A -> qto_graph n (FieldArray q A) = Ok g -> A <> [::] ->
  all (fun r => size r == n + n) A ->
  (qfrom_graph g = Ok (q, (size A, 2 * n, A)) <-> obind (qgraph_to_matrix 0) (qmatrix_to_graph 0 n A) = Some (size A, 2 * n, A)) /\
  (forall q' r, qfrom_graph g = Ok (q', r) -> q' = q).
Proof.
move=> hq hA; rewrite /qto_graph /=; case E: (qmatrix_to_graph 0 n A) => [g'|] // [<-] _ _.
split; last by move=> q' r /qfrom_graph_field [[->] _].
have hA' : all (all (fun v => v < q)) A by apply/allP => r hr; apply/allP => v; apply: hA.
rewrite /qfrom_graph /= hq; case: (qgraph_to_matrix 0 g') => [r|] //=; split; first by case: ifP => // _ [->].
by case=> ->; rewrite /= hA'.
Qed.

(* the order can be given afterwards: then numbers are as good as an array *)
Theorem C102_set_order q n A : is_order q -> over q A -> all (fun r => size r == n) A ->
  from_graph (set_order q (to_graph n (Numbers A))) = Ok (q, (size A, n, A)) <-> no_zero_line n A.
Proof. by move=> hq hA hs; case: (C102_classical hq hA hs). Qed.

(* any graph: the field of the result is the one stored on the graph, it exists and contains all values of edges *)
Theorem C102_stored g q r : from_graph g = Ok (q, r) ->
  [/\ order g = Stored q, is_order q & forall e, e \in edges (og g) -> e.2 < q].
Proof.
move=> h; have [h1 h2] := from_graph_field h; split=> //; move: h; rewrite /from_graph /getattr_order h1 /= h2.
by case E: (fill _ _ _ _ _) => [B|||] // _; apply/allP; apply: fill_val E.
Qed.

(* the default field is never used: every graph without a stored order raises TypeError, in particular that of every matrix of
   numbers, although the code says getattr(graph, "order", 2) *)
Theorem C102_default_refuted : exists n A, over 2 A /\ no_zero_line n A /\
  from_graph (to_graph n (Numbers A)) = TypeErr /\ from_graph (set_order 2 (to_graph n (Numbers A))) = Ok (2, (size A, n, A)) /\
  forall g, order g = Method -> from_graph g = TypeErr.
Proof.
exists 3, [:: [:: 1; 1; 0]; [:: 0; 1; 1]]; split; first by move=> r v; rewrite !inE => /orP [] /eqP ->; rewrite !inE => /or3P [] /eqP ->.
split; last by split=> //; split=> // g; rewrite /from_graph /getattr_order => ->.
split=> [[|[|i]] // _ | [|[|[|j]]] // _]; by [exists 0 | exists 1 | exists 0 | exists 2].
Qed.

(* the hypergraph product of two graphs over GF(q) is over GF(q); over nothing, if no orders are stored *)
Theorem C102_product (T U : Type) (a : ograph T) (b : ograph U) g q r :
  (order a = Stored q -> order b = Stored q -> qfrom_graph (product a b g) = Ok r -> r.1 = q) /\
  (order a = Method -> order b = Method -> forall r', qfrom_graph (product a b g) <> Ok r').
Proof.
split=> [ha _ | ha _ [q' r']]; last by move/qfrom_graph_field => /= []; rewrite ha.
by case: r => q' r' /qfrom_graph_field /= []; rewrite ha => [[->]].
Qed.
(* graphs over different fields are not refused: the product is over the field of the first *)
Theorem C102_product_refuted : exists (a b : ograph nat) g r,
  [/\ order a = Stored 2, order b = Stored 3 & qfrom_graph (product a b g) = Ok (2, r)].
Proof.
pose M := [:: [:: 1; 1]].
by exists (to_graph 2 (FieldArray 2 M)), (to_graph 2 (FieldArray 3 M)), (Graph [:: (0, false); (0, true)] [:: ((0, 0), (1, 0))]),
  (1, 2, [:: [:: 1; 0]]).
Qed.

(* non-vacuity *)
Example ex_C102_field : is_order 3 && is_order 4 && ~~ is_order 6.
Proof. by vm_compute. Qed.
Example ex_C102_classical : from_graph (to_graph 3 (FieldArray 3 [:: [:: 1; 2; 0]; [:: 0; 1; 1]])) =
  Ok (3, (2, 3, [:: [:: 1; 2; 0]; [:: 0; 1; 1]])).
Proof. by vm_compute. Qed.
Example ex_C102_qudit : match qto_graph 2 (FieldArray 3 [:: [:: 1; 1; 1; 0]; [:: 0; 0; 2; 2]]) with
  | Ok g => qfrom_graph g = Ok (3, (2, 4, [:: [:: 1; 1; 1; 0]; [:: 0; 0; 2; 2]])) | _ => False end.
Proof. by vm_compute. Qed.
(* a value outside the field, and a number that is not the order of a field *)
Example ex_C102_values : from_graph (set_order 2 (to_graph 2 (Numbers [:: [:: 1; 2]]))) = ValueErr /\
  from_graph (set_order 6 (to_graph 2 (Numbers [:: [:: 1; 2]]))) = ValueErr.
Proof. by split; vm_compute. Qed.

Print Assumptions C102_classical.
Print Assumptions C102_qudit.
Print Assumptions C102_set_order.
Print Assumptions C102_stored.
Print Assumptions C102_default_refuted.
Print Assumptions C102_product.
Print Assumptions C102_product_refuted.
