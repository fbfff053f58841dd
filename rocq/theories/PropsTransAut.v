(* C105, C106: which transversal gates are accepted (qldpc/circuits.py). *)
From mathcomp Require Import all_ssreflect.
From Verif Require Import Circuits TransAut.
Set Implicit Arguments.
Unset Strict Implicit.
Unset Printing Implicit Defensive.

(* C105: let a be an element of the group generated by the allowed gates.  It has a circuit, and a is an automorphism of the
   instrumental code of the checks C exactly if this circuit maps all Pauli operators that commute with the checks to Pauli operators
   that commute with the checks *)
Theorem C105_ordinary n gs sw a (C L : seq check) :
  uniq gs -> gen_by (is_gen n gs sw) a -> (forall h, h \in C -> size h.1 = n /\ size h.2 = n) ->
  exists2 c, aut_circuit n a gs = Some c &
    automorphism n gs (eff_checks false C L) a <->
    (forall l, all (fun qp : nat * pauli => qp.1 < n) l -> commutes C l -> commutes C (map (run c) l)).
Proof.
move=> u hg hC; have [c ec _] := group_circuit_ok u hg; exists c => //.
exact: (aut_iff u hg ec hC).
Qed.

(* C106: the same for deformations and the logical operators L, as long as the only local gates are SWAP and H ... *)
Theorem C106_deform_partial n gs sw a (C L : seq check) :
  gs = [::] \/ gs = [:: LH] -> gen_by (is_gen n gs sw) a -> (forall h, h \in L -> size h.1 = n /\ size h.2 = n) ->
  exists2 c, aut_circuit n a gs = Some c &
    automorphism n gs (eff_checks true C L) a <->
    (forall l, all (fun qp : nat * pauli => qp.1 < n) l -> commutes L l -> commutes L (map (run c) l)).
Proof.
move=> hgs hg hL; have u : uniq gs by case: hgs => ->.
have [c ec _] := group_circuit_ok u hg; exists c => //.
exact: (deform_iff hgs u hg ec hL).
Qed.

(* ... and for all gates with X and Z exchanged before and after the circuit (xzq exchanges them in a Pauli operator), which is what
   the function computes ... *)
Theorem C106_exact n gs sw a (C L : seq check) :
  uniq gs -> gen_by (is_gen n gs sw) a -> (forall h, h \in L -> size h.1 = n /\ size h.2 = n) ->
  exists2 c, aut_circuit n a gs = Some c &
    automorphism n gs (eff_checks true C L) a <->
    (forall l, all (fun qp : nat * pauli => qp.1 < n) l -> commutes L l -> commutes L (map xzq (map (run c) (map xzq l)))).
Proof.
move=> u hg hL; have [c ec _] := group_circuit_ok u hg; exists c => //.
have hL' h : h \in [seq (h.2, h.1) | h <- L] -> size h.1 = n /\ size h.2 = n by case/mapP => k /hL [h1 h2] ->.
have I l : map xzq (map xzq l) = l by rewrite -map_comp -[RHS]map_id; apply: eq_map => -[q []].
rewrite (aut_iff u hg ec hL'); split=> H l hl hc.
  by apply/commutes_xz; apply: H; [rewrite all_map | apply/commutes_xz; rewrite I].
by apply/commutes_xz; rewrite -[l]I; apply: H; [rewrite all_map | apply/commutes_xz].
Qed.

(* ... but not for the default gates SWAP, H and S: symplectic_conjugate exchanges the roles of X and Z, and the circuits do not.
   The code with the check XX on two qubits and the logical operators IX and ZZ: the gate S on the second qubit is accepted, although
   it maps the check to XY, which anticommutes with the logical operator IX (so deformed(circuit, preserve_logicals=True) raises) *)
Definition chk_ops (h : check) : seq (nat * pauli) :=
  [seq (q, PX) | q <- iota 0 (size h.1) & nth false h.1 q] ++ [seq (q, PZ) | q <- iota 0 (size h.2) & nth false h.2 q].
Definition ex_C : seq check := [:: ([:: true; true], [:: false; false])].
Definition ex_L : seq check := [:: ([:: false; true], [:: false; false]); ([:: false; false], [:: true; true])].
Theorem C106_deform_refuted :
  exists n gs sw a (C L : seq check) c,
    [/\ uniq gs, gen_by (is_gen n gs sw) a, aut_circuit n a gs = Some c & automorphism n gs (eff_checks true C L) a] /\
    [/\ (forall h, h \in C -> commutes L (chk_ops h)), (forall h, h \in C -> commutes C (chk_ops h)),
        anti_op (nth ([::], [::]) L 0) (chk_ops (nth ([::], [::]) L 1)) &
        exists2 h, h \in C & ~ commutes L (map (run c) (chk_ops h))].
Proof.
exists 2, [:: LS; LH], false, (sector_gen 2 1 1), ex_C, ex_L, [:: Loc GS [:: 1]]; split; split.
- by [].
- apply: (@gen_mul _ id (sector_gen 2 1 1)) => //; first exact: gen_id.
  by right; split=> //; exists 1, 1.
- by vm_compute.
- move=> e e' he hw h.
  have w1 := hw _ (mem_head _ _); have w2 := hw _ (mem_last _ _).
  have e0 := he 0 isT; have e1 := he 1 isT; have e2 := he 2 isT; have e3 := he 3 isT; have e4 := he 4 isT; have e5 := he 5 isT.
  move: e0 e1 e2 e3 e4 e5; rewrite /sector_gen /swap_loc /= => e0 e1 e2 e3 e4 e5.
  move: w1 w2; rewrite /dot /eff_checks /ex_L /= !big_cons !big_nil /= => w1 w2.
  rewrite !inE => /orP [] /eqP -> /=; rewrite /dot /= ?big_cons ?big_nil /=;
    rewrite ?e0 ?e1 ?e2 ?e3 ?e4 ?e5; move: w1 w2; clear;
    by case: (e 0); case: (e 1); case: (e 2); case: (e 3); case: (e 4); case: (e 5).
- by move=> h; rewrite inE => /eqP -> k; rewrite !inE => /orP [] /eqP ->; rewrite /anti_op /= !big_cons big_nil.
- by move=> h; rewrite inE => /eqP -> k; rewrite !inE => /eqP ->; rewrite /anti_op /= !big_cons big_nil.
- by rewrite /anti_op /= !big_cons big_nil.
- exists ([:: true; true], [:: false; false]) => //; move/(_ _ (mem_head _ _)).
  by rewrite /anti_op /= !big_cons big_nil.
Qed.

(* non-vacuity.  C105: for the Bell state (checks XX and ZZ), H on both qubits is accepted, H on one qubit is not *)
Definition bell : seq check := [:: ([:: true; true], [:: false; false]); ([:: false; false], [:: true; true])].
Example ex_C105_sizes h : h \in bell -> size h.1 = 2 /\ size h.2 = 2.
Proof. by rewrite !inE => /orP [] /eqP ->. Qed.
Example ex_C105_both : gen_by (is_gen 2 [:: LH] false) (fun x => sector_gen 2 0 1 (sector_gen 2 0 0 x)) /\
  aut_circuit 2 (fun x => sector_gen 2 0 1 (sector_gen 2 0 0 x)) [:: LH] = Some [:: Loc GH [:: 0]; Loc GH [:: 1]].
Proof.
split; last by vm_compute.
apply: (@gen_mul _ (sector_gen 2 0 0) (sector_gen 2 0 1)) => //; last by right; split=> //; exists 0, 1.
apply: (@gen_mul _ id (sector_gen 2 0 0)) => //; [exact: gen_id | by right; split=> //; exists 0, 0].
Qed.
Example ex_C105_accepted : automorphism 2 [:: LH] bell (fun x => sector_gen 2 0 1 (sector_gen 2 0 0 x)).
Proof.
move=> e e' he hw h; have w1 := hw _ (mem_head _ _); have w2 := hw _ (mem_last _ _).
move: (he 0 isT) (he 1 isT) (he 2 isT) (he 3 isT); rewrite /sector_gen /swap_loc /= => e0 e1 e2 e3.
move: w1 w2; rewrite /dot /= !big_cons !big_nil /= => w1 w2.
rewrite !inE => /orP [] /eqP -> /=; rewrite /dot /= ?big_cons ?big_nil /= ?e0 ?e1 ?e2 ?e3; move: w1 w2; clear;
  by case: (e 0); case: (e 1); case: (e 2); case: (e 3).
Qed.
Example ex_C105_rejected : ~ automorphism 2 [:: LH] bell (sector_gen 2 0 0).
Proof.
move=> A; have := A (fun x => x < 2) (fun x => (x == 1) || (x == 2)).
have he x : x < 4 -> (sector_gen 2 0 0 x == 1) || (sector_gen 2 0 0 x == 2) = (x < 2) by case: x => [|[|[|[|]]]].
have hw : word 2 [:: LH] bell (fun x => x < 2).
  by move=> h; rewrite !inE => /orP [] /eqP ->; rewrite /dot /= ?big_cons ?big_nil.
by move/(_ he hw _ (mem_head _ _)); rewrite /dot /= ?big_cons ?big_nil.
Qed.
(* C106_deform_partial: the swap of two qubits, with effective checks XX and ZZ *)
Example ex_C106 : (forall h, h \in ex_L -> size h.1 = 2 /\ size h.2 = 2) /\
  gen_by (is_gen 2 [::] true) (swap_gen 2 0) /\ aut_circuit 2 (swap_gen 2 0) [::] = Some [:: Swap 0 1] /\
  automorphism 2 [::] (eff_checks true ex_C bell) (swap_gen 2 0).
Proof.
split; first by move=> h; rewrite !inE => /orP [] /eqP ->.
split; first by apply: (@gen_mul _ id (swap_gen 2 0)) => //; [exact: gen_id | left; split=> //; exists 0].
split; first by vm_compute.
move=> e e' he hw h; have w1 := hw _ (mem_head _ _); have w2 := hw _ (mem_last _ _).
move: (he 0 isT) (he 1 isT) (he 2 isT) (he 3 isT); rewrite /swap_gen /= => e0 e1 e2 e3.
move: w1 w2; rewrite /dot /eff_checks /= !big_cons !big_nil /= => w1 w2.
rewrite !inE => /orP [] /eqP -> /=; rewrite /dot /= ?big_cons ?big_nil /= ?e0 ?e1 ?e2 ?e3; move: w1 w2; clear;
  by case: (e 0); case: (e 1); case: (e 2); case: (e 3).
Qed.

Print Assumptions C105_ordinary.
Print Assumptions C106_deform_partial.
Print Assumptions C106_exact.
Print Assumptions C106_deform_refuted.
