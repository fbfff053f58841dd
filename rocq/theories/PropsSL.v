(* Property C86: SpecialLinearGroup(d, q) is the special linear group. *)
From mathcomp Require Import all_ssreflect all_algebra zify.
From Verif Require Import LinAlg Classical ClassicalProofs PermGroup GroupTable GroupTerm SlGen PropsGroup.
Set Implicit Arguments.
Unset Strict Implicit.
Unset Printing Implicit Defensive.
Import GRing.Theory.
Local Open Scope ring_scope.

(* pe is a primitive element of the field *)
Definition primitive (F : fieldType) (pe : F) : Prop := forall x, x != 0 -> exists k, x = pe ^+ k.

Section Props.
Variables (F : finFieldType) (pe : F) (d : nat).
Hypotheses (prim : primitive pe) (d2 : (1 < d)%N).
Let gens := sl_gens d #|F| pe.

(* the products of the two generating matrices are all matrices of determinant one, and no others *)
Theorem C86_generators (A : 'M[F]_d) :
  (exists w, [/\ w <> [::], all (fun i => i < 2)%N w & A = word_prod d gens w]) <-> \det A = 1.
Proof. rewrite /gens; case: d d2 A => [|[|d']] // _ A; exact: (sl_generated prim). Qed.

(* linear_rep=True: the permutations of the nonzero vectors that the generators generate are those of the matrices of
   determinant one, and different matrices have different permutations; so the order of the group is that of SL(d, q) *)
Theorem C86_linear (el : seq F) : uniq (0 :: el) -> (forall x, x \in 0 :: el) ->
  let T := sl_space (0 :: el) d in
  (forall p, (exists w, all (fun i => i < 2)%N w /\ p = word_perm (size T) [seq sl_perm T A | A <- gens] w) <->
     (exists A : mat F, [/\ size A = d, wf d A, \det (mx d d A) = 1 & p = sl_perm T A])) /\
  (forall A B : mat F, size A = d -> wf d A -> \det (mx d d A) = 1 -> size B = d -> wf d B -> \det (mx d d B) = 1 ->
     sl_perm T A = sl_perm T B -> A = B).
Proof.
move=> uel ael; rewrite /gens; case: d d2 => [|[|d']] // _; set dd := d'.+2; set T := sl_space _ _.
have uT0 := uniq_product dd uel; have hd := product_head el dd.
have uT : uniq T by move: uT0; rewrite hd /= => /andP [].
have hT v : (v \in T) = (size v == dd) && (v != nseq dd 0).
  have := mem_product (0 :: el) dd v; rewrite (_ : all _ v) ?andbT; last by apply/allP => x _; apply: ael.
  rewrite hd in_cons -/(sl_space _ _) -/T => e; have n0 : nseq dd 0 \notin T by move: uT0; rewrite hd /= => /andP [].
  by move: e; case: eqP => [-> _ | _ <-] /=; rewrite ?andbF ?andbT //; apply/negbTE.
split=> [p | A B sA wA dA sB wB dB e].
  have [h1 h2] := sl_linear prim uT hT p; split=> [/h1 [A [dA ->]] | [A [sA wA dA ep]]].
    by exists (lmx A); rewrite size_lmx wf_lmx mx_lmx.
  by apply: h2; exists (mx dd dd A); rewrite lmx_mx.
rewrite -(lmx_mx sA wA) -(lmx_mx sB wB); congr lmx; apply: (sl_perm_inj hT) => //.
by rewrite !lmx_mx.
Qed.

(* linear_rep=False: the loop ends, and the members of the group are lifted to the matrices of determinant one, each to a
   different one; the order of the group is the number of such matrices *)
Theorem C86_regular : exists fuel gs table idx, gen_mats (mull d) [::] fuel gens = Some (gs, table, idx) /\
  let lift := gm_lift [::] table idx in
  [/\ {in table &, injective lift}, forall A, (exists2 p, p \in table & mx d d (lift p) = A) <-> \det A = 1,
      size table = #|[set A : 'M[F]_d | \det A == 1]|
    & forall p q, p \in table -> q \in table -> lift (pmul p q) = mull d (lift q) (lift p)].
Proof.
have [ug qg] : uniq gens /\ all (square d) gens.
  by rewrite /gens; case: d d2 => [|[|d']] // _; split; [exact: gens_uniq | exact: gens_sq].
have g0 : (0 < size gens)%N by [].
have [fuel [[[gs table] idx] e]] := gen_mats_finite g0 ug qg; exists fuel, gs, table, idx; split=> //.
have [_ _ _ hm _] := C58_generating_mats g0 ug qg e; have [ut inj sq ex] := gen_mats_members g0 ug qg e.
have ex' A : (exists2 p, p \in table & mx d d (gm_lift [::] table idx p) = A) <-> \det A = 1.
  by rewrite ex; apply: C86_generators.
split=> //; set lift := gm_lift [::] table idx in ex' *.
have inj' : {in table &, injective (fun p => mx d d (lift p))} by move=> p r hp hr /(sq_eq (sq _ hp) (sq _ hr)) /inj; apply.
have u2 : uniq [seq mx d d (lift p) | p <- table] by rewrite map_inj_in_uniq.
rewrite -(size_map (fun p => mx d d (lift p))) -(card_uniqP u2); apply: eq_card => A; rewrite inE.
apply/mapP/eqP => [[p hp ->] | /ex' [p hp <-]]; [by apply/ex'; exists p | by exists p].
Qed.

(* iter_mats yields every matrix of determinant one exactly once *)
Theorem C86_iter (el : seq F) : uniq el -> (forall x, x \in el) -> uniq (sl_iter el d) /\
  forall A : mat F, (A \in sl_iter el d) = [&& size A == d, wf d A & \det (mx d d A) == 1].
Proof. exact: sl_iterP. Qed.
End Props.

(* the fields with two, three and five elements *)
Lemma prim2 : primitive (1 : 'F_2).
Proof. by move=> [[|[|k]] h] // _; exists 0%N; apply: val_inj. Qed.
Lemma prim3 : primitive (- 1 : 'F_3).
Proof. by move=> [[|[|[|k]]] h] // _; [exists 0%N | exists 1%N]; apply: val_inj. Qed.
Lemma prim5 : primitive (2%:R : 'F_5).
Proof. by move=> [[|[|[|[|[|k]]]]] h] // _; [exists 0%N | exists 1%N | exists 3%N | exists 2%N]; apply: val_inj. Qed.
Example ex_C86 (A : 'M['F_5]_4) : \det A = 1 -> exists w, A = word_prod 4 (sl_gens 4 #|[finFieldType of 'F_5]| 2%:R) w.
Proof. by move=> /(C86_generators prim5 (isT : (1 < 4)%N)) [w [_ _ ->]]; exists w. Qed.
Example ex_C86_elements : uniq (0 :: [:: 1; 2%:R; 3%:R; 4%:R : 'F_5]) /\ forall x : 'F_5, x \in 0 :: [:: 1; 2%:R; 3%:R; 4%:R].
Proof. by split; [vm_compute | move=> [[|[|[|[|[|k]]]]] h]]. Qed.

Print Assumptions C86_generators.
Print Assumptions C86_linear.
Print Assumptions C86_regular.
Print Assumptions C86_iter.
