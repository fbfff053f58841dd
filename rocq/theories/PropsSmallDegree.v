(* C108: transversal gates are turned into circuits without exceptions (qldpc/circuits.py). *)
From mathcomp Require Import all_ssreflect.
From Verif Require Import Circuits TransAut Intersect SmallDegree.
Set Implicit Arguments.
Unset Strict Implicit.
Unset Printing Implicit Defensive.

(* C108: if some automorphism of the instrumental code moves the last column, the automorphisms that are found can be called on all
   columns that the circuits ask for ... *)
Theorem C108_calls_partial n gs H gens b :
  aut_gens n gs H gens -> 0 < size (sectors gs) * n -> col_perm (size (sectors gs) * n) b -> automorphism n gs H b ->
  b (size (sectors gs) * n).-1 <> (size (sectors gs) * n).-1 ->
  forall a, calls_ok n gs (found_size gens) a.
Proof.
move=> [hp hg] N0 pb ab mb a; apply: calls_full.
suff /(gdegree_full N0 (proper_lt hp)) <- : (size (sectors gs) * n).-1 \in flatten (flatten gens) by [].
apply/(proper_moves _ hp).
case E: (has (fun g => cyc_fun g (size (sectors gs) * n).-1 != (size (sectors gs) * n).-1) gens); first exact/hasP.
case: mb; apply: (@generated_fix gens); last by apply/hg.
by move=> g g1; apply/eqP; move/negbT: E => /hasPn /(_ g g1); rewrite negbK.
Qed.

(* ... but there is a code (seven qubits, three commuting checks) for which get_transversal_ops(code) raises an exception with the
   default gates, whatever generators of automorphisms GAP prints: all of them fix the last column, so the identity that is found is
   a permutation of fewer columns *)
Definition bits (s : seq nat) : seq bool := [seq x == 1 | x <- s].
Definition seven : seq check :=
  [:: (bits [:: 1; 1; 0; 0; 1; 0; 1], bits [:: 0; 0; 1; 1; 0; 0; 1]);
      (bits [:: 0; 0; 0; 0; 0; 1; 0], bits [:: 0; 1; 1; 1; 0; 0; 1]);
      (bits [:: 0; 0; 1; 1; 1; 1; 0], bits [:: 1; 1; 0; 0; 0; 0; 0])].
Definition inner (h k : check) : bool :=
  odd (count (fun q => nth false h.1 q && nth false k.2 q) (iota 0 7) + count (fun q => nth false h.2 q && nth false k.1 q) (iota 0 7)).
Theorem C108_calls_refuted :
  exists n (H : seq check),
    [/\ forall h, h \in H -> size h.1 = n /\ size h.2 = n, forall h k, h \in H -> k \in H -> inner h k = false &
    forall gens, proper (size (sectors [:: LS; LH]) * n) gens ->
      (forall g, g \in gens -> col_perm (size (sectors [:: LS; LH]) * n) (cyc_fun g) /\ automorphism n [:: LS; LH] H (cyc_fun g)) ->
      forall a, intersection n [:: LS; LH] true gens a -> a =1 id /\ ~~ calls_ok n [:: LS; LH] (found_size gens) a].
Proof.
exists 7, seven; split.
- by move=> h; rewrite !inE => /or3P [] /eqP ->.
- by move=> h k; rewrite !inE => /or3P [] /eqP -> /or3P [] /eqP ->; apply/eqP; vm_compute.
move=> gens hp ha.
have fix20 g : g \in gens -> cyc_fun g 20 = 20.
  by case/ha => pg ag; apply: (lonely_fixed _ _ pg ag) => //; vm_compute.
have no : ~ exists2 g, g \in gens & cyc_fun g 20 != 20 by case=> g /fix20 ->.
move=> a hi; split.
  by case: hi => // -[_ [/degrees_agree h _]]; case: no; apply: h.
apply: calls_last => //; rewrite ltn_neqAle; apply/andP; split; last exact: (foldr_max_le (proper_lt hp)).
by apply/eqP => /(gdegree_full (isT : 0 < 21) (proper_lt hp)) /(proper_moves _ hp).
Qed.

(* non-vacuity: the swap of the equal columns 0 and 1 is an automorphism of the code of the refutation *)
Example ex_C108 : proper 21 [:: [:: [:: 0; 1]]] /\ col_perm 21 (cyc_fun [:: [:: 0; 1]]) /\
  automorphism 7 [:: LS; LH] seven (cyc_fun [:: [:: 0; 1]]).
Proof.
have E : cyc_fun [:: [:: 0; 1]] =1 swap_loc 0 1 by case=> [|[|x]].
split=> //; split.
  split=> [x | x y | x]; rewrite !E; first by case: x => [|[|]].
    by case: x => [|[|x]]; case: y => [|[|y]].
  by case: x => [|[|]].
move=> e e' he hw h hh; rewrite -(hw h hh).
have e0 := he 0 isT; have e1 := he 1 isT; have ex x : x.+2 < 21 -> e' x.+2 = e x.+2 by move=> hx; rewrite -(he x.+2 hx) E.
rewrite E /= in e0; rewrite E /= in e1.
rewrite /dot /= !big_cons e0 e1 !ex //.
move: hh; rewrite !inE; clear; case/or3P => /eqP -> /=; rewrite ?big_nil; by case: (e 0); case: (e 1).
Qed.
Example ex_C108_calls : calls_ok 1 [:: LH] (found_size [:: [:: [:: 0; 1]]]) (swap_loc 0 1). Proof. by vm_compute. Qed.

Print Assumptions C108_calls_partial.
Print Assumptions C108_calls_refuted.
