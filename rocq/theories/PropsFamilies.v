(* Property C52: elementary families of classical codes. *)
From mathcomp Require Import all_ssreflect all_algebra zify.
From Verif Require Import LinAlg RowReduce Classical ClassicalProofs ClassicalProofs2 ClassicalDist Pack.
From Verif Require Import Families FamiliesProofs FamiliesProofs2 FamiliesProofs3.
From Verif Require Import PropsClassical.
Set Implicit Arguments.
Unset Strict Implicit.
Unset Printing Implicit Defensive.
Import GRing.Theory.
Local Open Scope ring_scope.

Section Props.
Variable F : fieldType.
Notation vec := (seq F).
Implicit Types c : ccode F.

(* Every theorem says: the constructor succeeds, and the stored dimension and distance are those of the code *)
Theorem C52_repetition bits : (0 < bits)%N -> exists c, [/\ repetition F bits = Some (c, Dist bits), cc_n c = bits,
  code_ok c, has_dim bits (cc_mat c) 1 /\ dimension c = 1%N
  & is_dist bits (cc_mat c) bits /\ forall w, is_word bits (cc_mat c) w <-> exists a, w = nseq bits a].
Proof.
case: bits => // b _; have [c [e n d ok [hd hdist]]] := @repetition_ok F _ (ltn0Sn b).
exists c; split=> //; split=> // w; move: e => [<-] /=; exact: rep_words.
Qed.

Theorem C52_ring bits : (1 < bits)%N -> let c := (ring_code F bits).1 in
  [/\ (ring_code F bits).2 = Dist bits, cc_n c = bits, code_ok c, has_dim bits (cc_mat c) 1 /\ dimension c = 1%N
  & is_dist bits (cc_mat c) bits /\ forall w, is_word bits (cc_mat c) w <-> exists a, w = nseq bits a].
Proof.
move=> b1; have [e n d ok [hd hdist]] := @ring_ok F _ b1; split=> //; split=> // w; exact: ring_words.
Qed.

(* `el` lists the elements of the field.  The length is (q^rank - 1) / (q - 1); the code has `rank` independent checks.  For
   rank 1 the code has no nonzero word, whence the distance is not defined *)
Theorem C52_hamming (el : vec) rank : uniq el -> (forall x, x \in el) -> (0 < rank)%N ->
  exists c, [/\ hamming_code el rank = Some (c, Dist 3), (cc_n c * (size el - 1))%N = (size el ^ rank - 1)%N,
    code_ok c, has_dim (cc_n c) (cc_mat c) (cc_n c - rank) /\ dimension c = (cc_n c - rank)%N
    & (1 < rank)%N -> is_dist (cc_n c) (cc_mat c) 3].
Proof.
move=> uel ael r0; have [c [e n ok hd hdist]] := hamming_ok uel ael r0; exists c; split=> //.
by rewrite n; exact: (hamming_length uel).
Qed.

(* rank 1: the method that reports distances does not report the stored 3 *)
Theorem C52_hamming_rank1 (el : vec) be c kd : uniq el -> (forall x, x \in el) -> hamming_code el 1 = Some (c, kd) ->
  get_distance_exact be el c (Some kd) None = Some NaN.
Proof.
move=> uel ael e; have [c' [e' n _ [_ hd] _]] := hamming_ok uel ael (ltn0Sn 0).
have q1 : (1 < size el)%N.
  by apply: (@uniq_leq_size _ [:: 0; 1]) => [|x _]; rewrite ?ael //= inE andbT eq_sym oner_neq0.
have l := hamming_length uel 1; rewrite -n expn1 in l; rewrite e in e'; case: e' => ec _; subst c'.
have n1 : cc_n c = 1%N by apply/eqP; rewrite -(eqn_pmul2r (m := size el - 1)) ?mul1n ?l // subn_gt0.
by rewrite /get_distance_exact /get_distance_if_known hd n1.
Qed.

Theorem C52_extended_hamming rank : (forall x : F, x \in [:: 0; 1]) -> (1 < rank)%N ->
  exists c, [/\ ext_hamming_code F rank = Some (c, Dist 4), cc_n c = (2 ^ rank)%N, code_ok c,
    has_dim (cc_n c) (cc_mat c) (2 ^ rank - rank - 1) /\ dimension c = (2 ^ rank - rank - 1)%N & is_dist (cc_n c) (cc_mat c) 4].
Proof. by move=> bin r1; apply: ext_hamming_ok. Qed.

(* the words are the combinations of the rows of the recursively defined generator matrix *)
Theorem C52_reed_muller order m : (0 < order <= m)%N -> exists c, [/\ reed_muller F order m = Some (c, Dist (2 ^ (m - order))),
  cc_n c = (2 ^ m)%N, code_ok c,
  has_dim (cc_n c) (cc_mat c) (\sum_(i < order.+1) 'C(m, i)) /\ dimension c = (\sum_(i < order.+1) 'C(m, i))%N
  & is_dist (cc_n c) (cc_mat c) (2 ^ (m - order)) /\
    forall w, size w = (2 ^ m)%N -> is_word (cc_n c) (cc_mat c) w <-> exists x, is_comb (2 ^ m) (rm_generator F order m) x w].
Proof. exact: rm_ok. Qed.

(* all nonzero words have the same weight *)
Theorem C52_simplex dim : (forall x : F, x \in [:: 0; 1]) -> (1 < dim < 8)%N ->
  exists c, [/\ simplex_code F dim = Some (c, Dist (2 ^ dim.-1)), cc_n c = (2 ^ dim - 1)%N,
    code_ok c, has_dim (cc_n c) (cc_mat c) dim /\ dimension c = dim
  & is_dist (cc_n c) (cc_mat c) (2 ^ dim.-1) /\
    forall w, is_word (cc_n c) (cc_mat c) w -> (exists j, nth 0 w j <> 0) -> hwt w = (2 ^ dim.-1)%N].
Proof. by move=> bin d; apply: simplex_ok. Qed.
Theorem C52_simplex_none dim : ~~ (1 < dim < 8)%N -> simplex_code F dim = None.
Proof. by case: dim => [|[|[|[|[|[|[|[|]]]]]]]]. Qed.

(* A ring of one bit stores dimension 1 and distance 1, but its only word is zero *)
Theorem C52_ring_refuted : exists bits, [/\ (0 < bits)%N, dimension (ring_code F bits).1 = 1%N,
  (ring_code F bits).2 = Dist 1, ~ code_ok (ring_code F bits).1
  & forall w, is_word bits (cc_mat (ring_code F bits).1) w -> w = nseq bits 0].
Proof.
exists 1%N; have wz w : is_word 1 (cc_mat (ring_code F 1).1) w -> w = nseq 1 0.
  case=> sw h; have := h [:: -1] (mem_head _ _); rewrite big_ord1 /= mulN1r.
  by case: w sw {h} => // x [] // _ /eqP; rewrite oppr_eq0 /= => /eqP ->.
split=> // -[_ _ /(_ _ erefl) [G [[hG _ hu] sG]]].
case: G sG hG hu => // g [] // _ hG hu; have eg := wz _ (hG _ (mem_head _ _)).
have cmb a : is_comb 1 [:: g] [:: a] [:: 0].
  by rewrite eg; split=> // -[] // _; rewrite big_ord1 /= mulr0.
have [/eqP] := hu _ _ _ (cmb 0) (cmb 1).
by rewrite eq_sym oner_eq0.
Qed.

(* ReedMullerCode(0, m) is admitted by the documented condition m >= 0 and 0 <= r <= m, but cannot be constructed *)
Theorem C52_reed_muller_refuted : exists order m, (order <= m)%N /\ reed_muller F order m = None.
Proof. by exists 0%N, 3%N; split. Qed.
End Props.

Lemma F2_elems (x : 'F_2) : x \in [:: 0; 1 : 'F_2].
Proof. by case: x => [[|[|m]] i] //; rewrite !inE -!(inj_eq val_inj). Qed.
Lemma F3_elems (x : 'F_3) : x \in [:: 0; 1; 2%:R : 'F_3].
Proof. by case: x => [[|[|[|m]]] i] //; rewrite !inE -!(inj_eq val_inj). Qed.

(* concrete members *)
Example C52_repetition_example : exists c, repetition [fieldType of 'F_3] 3 = Some (c, Dist 3) /\ cc_mat c = b3 [:: [:: 1;2;0]; [:: 0;1;2]]%N.
Proof. by eexists; split; [reflexivity | apply/eqP; vm_compute]. Qed.
Example C52_ring_example : is_dist 4 (cc_mat (ring_code [fieldType of 'F_3] 4).1) 4.
Proof. by case: (@C52_ring [fieldType of 'F_3] 4 isT) => _ _ _ _ []. Qed.
(* the ternary Hamming code of length 4 *)
Example C52_hamming_example : exists c, [/\ hamming_code [:: 0; 1; 2%:R : 'F_3] 2 = Some (c, Dist 3),
  cc_mat c = b3 [:: [:: 0;1;1;1]; [:: 1;0;1;2]]%N & is_dist 4 (cc_mat c) 3].
Proof.
have [c [e n _ _ /(_ isT) d]] := @C52_hamming [fieldType of 'F_3] [:: 0; 1; 2%:R] 2 isT F3_elems isT.
have h : omap (fun p => (cc_n p.1, cc_mat p.1)) (hamming_code [:: 0; 1; 2%:R : 'F_3] 2) == Some (4%N, b3 [:: [:: 0;1;1;1]; [:: 1;0;1;2]]%N) by vm_compute.
by exists c; rewrite e /= in h; move/eqP: h => [h1 h2]; split; [exact: e | exact: h2 | rewrite -h1].
Qed.
Example C52_extended_hamming_example : exists c, [/\ ext_hamming_code [fieldType of 'F_2] 3 = Some (c, Dist 4),
  cc_mat c = b2 [:: [:: 1;1;1;1;0;0;0;0]; [:: 0;0;0;0;1;1;1;1]; [:: 0;0;1;1;0;0;1;1]; [:: 0;1;0;1;0;1;0;1]]%N & is_dist 8 (cc_mat c) 4].
Proof.
have [c [e n _ _ d]] := @C52_extended_hamming [fieldType of 'F_2] 3 F2_elems isT.
have h : omap (fun p => (cc_n p.1, cc_mat p.1)) (ext_hamming_code [fieldType of 'F_2] 3) == Some (8%N, b2 [:: [:: 1;1;1;1;0;0;0;0]; [:: 0;0;0;0;1;1;1;1]; [:: 0;0;1;1;0;0;1;1]; [:: 0;1;0;1;0;1;0;1]]%N) by vm_compute.
by exists c; rewrite e /= in h; move/eqP: h => [h1 h2]; split; [exact: e | exact: h2 | rewrite -h1].
Qed.
Example C52_reed_muller_example : exists c, [/\ reed_muller [fieldType of 'F_2] 1 3 = Some (c, Dist 4), dimension c = 4%N & is_dist 8 (cc_mat c) 4].
Proof.
have [c [e n _ [_ k] [d _]]] := @C52_reed_muller [fieldType of 'F_2] 1 3 isT.
by exists c; split=> //; [rewrite k !big_ord_recl big_ord0 | rewrite n in d].
Qed.
Example C52_simplex_example : exists c, [/\ simplex_code [fieldType of 'F_2] 3 = Some (c, Dist 4), dimension c = 3%N & is_dist 7 (cc_mat c) 4].
Proof.
have [c [e n _ [_ k] [d _]]] := @C52_simplex [fieldType of 'F_2] 3 F2_elems isT.
by exists c; split=> //; rewrite n in d.
Qed.

Print Assumptions C52_repetition.
Print Assumptions C52_ring.
Print Assumptions C52_hamming.
Print Assumptions C52_hamming_rank1.
Print Assumptions C52_extended_hamming.
Print Assumptions C52_reed_muller.
Print Assumptions C52_simplex.
Print Assumptions C52_simplex_none.
Print Assumptions C52_ring_refuted.
Print Assumptions C52_reed_muller_refuted.
