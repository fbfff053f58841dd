(* C107: the group of transversal automorphisms is complete (qldpc/circuits.py). *)
From mathcomp Require Import all_ssreflect.
From Verif Require Import Circuits TransAut Intersect.
Set Implicit Arguments.
Unset Strict Implicit.
Unset Printing Implicit Defensive.

(* C107: if some automorphism of the instrumental code moves the last column, the group that is returned consists exactly of the
   products of allowed gates that are automorphisms ... *)
Theorem C107_complete_partial n gs sw H gens b :
  (sw && (1 < n)) || ((gs != [::]) && (0 < n)) -> aut_gens n gs H gens ->
  col_perm (size (sectors gs) * n) b -> automorphism n gs H b -> b (size (sectors gs) * n).-1 <> (size (sectors gs) * n).-1 ->
  forall a, col_perm (size (sectors gs) * n) a ->
    (intersection n gs sw gens a <-> automorphism n gs H a /\ gate_group n gs sw a).
Proof. by move=> h hg pb ab mb a pa; apply: (complete h hg pb ab mb pa). Qed.

(* ... in other words, of the products of allowed gates whose circuits preserve commutation with all checks ... *)
Theorem C107_gates_partial n gs sw H gens b :
  uniq gs -> (forall h, h \in H -> size h.1 = n /\ size h.2 = n) ->
  (sw && (1 < n)) || ((gs != [::]) && (0 < n)) -> aut_gens n gs H gens ->
  col_perm (size (sectors gs) * n) b -> automorphism n gs H b -> b (size (sectors gs) * n).-1 <> (size (sectors gs) * n).-1 ->
  forall a, col_perm (size (sectors gs) * n) a ->
    (intersection n gs sw gens a <->
     exists a' c, [/\ gen_by (is_gen n gs sw) a', forall x, x < size (sectors gs) * n -> a' x = a x, aut_circuit n a' gs = Some c &
       forall l, all (fun qp : nat * pauli => qp.1 < n) l -> commutes H l -> commutes H (map (run c) l)]).
Proof.
move=> u hH h hg pb ab mb a pa; rewrite (complete h hg pb ab mb pa).
have ext a1 a2 : (forall x, x < size (sectors gs) * n -> a1 x = a2 x) -> automorphism n gs H a1 -> automorphism n gs H a2.
  by move=> e12 h1 e e' he; apply: (h1 e e') => x hx; rewrite e12 // he.
split=> [[aa [a' ga' ea']] | [a' [c [ga' ea' ec hc]]]].
  have [c ec _] := group_circuit_ok u ga'; exists a', c; split=> //.
  by apply/(aut_iff u ga' ec hH); apply: (ext a) => // x hx; rewrite ea'.
split; last by exists a'.
by apply: (ext a' a ea'); apply/(aut_iff u ga' ec hH).
Qed.

(* ... and in general nothing wrong is returned *)
Theorem C107_sound n gs sw H gens a :
  (forall g, g \in gens -> automorphism n gs H (cyc_fun g)) -> intersection n gs sw gens a ->
  automorphism n gs H a /\ gate_group n gs sw a.
Proof.
move=> h [[ga [_ gb]] | e]; last by split; [apply: aut_id | apply: gate_id].
by split; [apply: aut_generated ga | apply: generated_gate].
Qed.

(* but otherwise only the identity is returned, because sympy compares the degrees of the two groups: two qubits with the check IZ
   and the gate H.  Whatever generators of automorphisms GAP prints, H on the first qubit is missing *)
Definition iz : seq check := [:: ([:: false; false], [:: false; true])].
Theorem C107_complete_refuted :
  exists n gs sw (H : seq check) a,
    [/\ gen_by (is_gen n gs sw) a, automorphism n gs H a, col_perm (size (sectors gs) * n) a & ~ a =1 id] /\
    forall gens, proper (size (sectors gs) * n) gens -> (forall g, g \in gens -> automorphism n gs H (cyc_fun g)) ->
      ~ intersection n gs sw gens a.
Proof.
exists 2, [:: LH], false, iz, (sector_gen 2 0 0); split.
  split.
  - by apply: (@gen_mul _ id (sector_gen 2 0 0)) => //; [exact: gen_id | right; split=> //; exists 0, 0].
  - move=> e e' he hw h; have w1 := hw _ (mem_head _ _).
    move: (he 0 isT) (he 1 isT) (he 2 isT) (he 3 isT); rewrite /sector_gen /swap_loc /= => e0 e1 e2 e3.
    move: w1; rewrite /dot /= !big_cons !big_nil /= => w1.
    by rewrite !inE => /eqP -> /=; rewrite /dot /= ?big_cons ?big_nil /= e3.
  - split; [by case=> [|[|[|[|]]]] | | by case=> [|[|[|[|]]]]].
    by case=> [|[|[|[|x]]]] // [|[|[|[|y]]]].
  - by move/(_ 0).
move=> gens hp ha [[_ [/degrees_agree]] | /(_ 0) //]; move/(_ isT hp) => [g hg /eqP mg] _; apply: mg.
case E: (cyc_fun g 3 == 3); first exact/eqP.
have hw : word 2 [:: LH] iz (fun x => cyc_fun g x == 3).
  by move=> h; rewrite inE => /eqP ->; rewrite /dot /= !big_cons big_nil /= E.
have := ha g hg (fun x => cyc_fun g x == 3) (fun y => y == 3) (fun x _ => erefl) hw _ (mem_head _ _).
by rewrite /dot /= !big_cons big_nil.
Qed.

(* non-vacuity: one qubit without checks and the gate H *)
Example ex_C107_gens : aut_gens 1 [:: LH] [::] [:: [:: [:: 0; 1]]].
Proof.
split=> // a [lt inj fix_]; split=> // _.
have sw1 : cyc_fun [:: [:: 0; 1]] =1 swap_loc 0 1 by case=> [|[|x]].
have h0 := lt 0 isT; have h1 := lt 1 isT.
case E: (a 0 == 0).
  apply: gen_id => -[|[|x]]; [exact/eqP | | by rewrite fix_].
  move: h1; case E1: (a 1) => [|[|y]] //= _; have := inj 0 1 isT isT; by rewrite (eqP E) E1 => /(_ erefl).
apply: (@gen_mul _ id (cyc_fun [:: [:: 0; 1]])); [exact: gen_id | by exists [:: [:: 0; 1]] |].
have e0 : a 0 = 1 by move: h0 E; case: (a 0) => [|[|y]].
case=> [|[|x]]; [by rewrite e0 | | by rewrite fix_].
by move: h1; case E1: (a 1) => [|[|y]] //= _; have := inj 0 1 isT isT; rewrite e0 E1 => /(_ erefl).
Qed.
Example ex_C107_moves : [/\ col_perm 2 (swap_loc 0 1), automorphism 1 [:: LH] [::] (swap_loc 0 1) & swap_loc 0 1 1 <> 1].
Proof.
split=> //; split; [by case=> [|[|]] | | by case=> [|[|]]].
by case=> [|[|x]] // [|[|y]].
Qed.
Example ex_C107_found : intersection 1 [:: LH] false [:: [:: [:: 0; 1]]] (swap_loc 0 1).
Proof.
left; split; last first.
  split=> //; apply: (@gen_mul _ id (swap_loc 0 1)) => //; [exact: gen_id |].
  by exists [:: [:: 0; 1]] => //; case=> [|[|x]].
by apply: (@gen_mul _ id (swap_loc 0 1)) => //; [exact: gen_id | exists [:: [:: 0; 1]] => //; case=> [|[|x]]].
Qed.
(* for the check IZ the generators (0,1) and (1,2) are automorphisms and satisfy the hypotheses of the refutation *)
Example ex_C107_iz : proper 4 [:: [:: [:: 0; 1]]; [:: [:: 1; 2]]] /\
  forall g, g \in [:: [:: [:: 0; 1]]; [:: [:: 1; 2]]] -> automorphism 2 [:: LH] iz (cyc_fun g).
Proof.
split=> // g; rewrite !inE => hg e e' he hw h; have w1 := hw _ (mem_head _ _).
have e3 : e' 3 = e 3 by have := he 3 isT; case/orP: hg => /eqP ->.
move: w1; rewrite /dot /= !big_cons !big_nil /= => w1.
by rewrite !inE => /eqP -> /=; rewrite /dot /= ?big_cons ?big_nil /= e3.
Qed.

Print Assumptions C107_complete_partial.
Print Assumptions C107_gates_partial.
Print Assumptions C107_sound.
Print Assumptions C107_complete_refuted.
