(* Property C58 (end of the loop): Group.from_generating_mats returns for every list of matrices that generates a finite group. *)
From mathcomp Require Import all_ssreflect all_algebra zify.
From Verif Require Import LinAlg Classical PermGroup GroupTable GroupTerm PropsGroup.
Set Implicit Arguments.
Unset Strict Implicit.
Unset Printing Implicit Defensive.
Import GRing.Theory Num.Theory.
Local Open Scope ring_scope.

(* distinct invertible matrices: the constructor returns a group after finitely many steps if and only if there are only
   finitely many products of the matrices *)
Theorem C58_terminates (F : fieldType) (d : nat) (mats : seq (mat F)) :
  (0 < size mats)%N -> uniq mats -> all (square d) mats ->
  (exists S : seq 'M[F]_d, forall M, generated mats M -> M \in S) <->
  (exists fuel r, gen_mats (mull d) [::] fuel mats = Some r).
Proof. exact: gen_mats_ends. Qed.
(* the result does not depend on the fuel *)
Theorem C58_fuel (T : eqType) (mul : T -> T -> T) x0 f g mats r s :
  gen_mats mul x0 f mats = Some r -> gen_mats mul x0 g mats = Some s -> r = s.
Proof. by move=> /(gen_mats_fuel g) h1 /(gen_mats_fuel f) h2; move: h1; rewrite addnC h2 => -[]. Qed.
(* over finite fields the constructor always returns, and what it returns is described by C58_generating_mats *)
Theorem C58_finite_field (F : finFieldType) (d : nat) (mats : seq (mat F)) :
  (0 < size mats)%N -> uniq mats -> all (square d) mats ->
  exists fuel gens table idx, gen_mats (mull d) [::] fuel mats = Some (gens, table, idx) /\
    (forall k, gen_mats (mull d) [::] (fuel + k) mats = Some (gens, table, idx)) /\
    let lift := gm_lift [::] table idx in
    [/\ grp_ok (size table) table, {subset gens <= table} /\ size gens = size mats,
      forall i, (i < size mats)%N -> lift (nth [::] gens i) = nth [::] mats i,
      forall p q, p \in table -> q \in table -> lift (pmul p q) = mull d (lift q) (lift p)
    & forall p, p \in table -> exists w, all (fun i => i < size mats)%N w /\ p = word_perm (size table) gens w].
Proof.
move=> n0 u hs; have [fuel [[[gens table] idx] e]] := gen_mats_finite n0 u hs.
exists fuel, gens, table, idx; split=> //; split; first by move=> k; apply: gen_mats_fuel.
exact: C58_generating_mats n0 u hs e.
Qed.
(* the members of the constructed group are lifted to all products of the matrices, and different members to different ones *)
Theorem C58_members (F : fieldType) (d fuel : nat) (mats : seq (mat F)) gens table idx :
  (0 < size mats)%N -> uniq mats -> all (square d) mats -> gen_mats (mull d) [::] fuel mats = Some (gens, table, idx) ->
  let lift := gm_lift [::] table idx in
  [/\ uniq table, {in table &, injective lift}, forall p, p \in table -> square d (lift p)
    & forall M, (exists2 p, p \in table & mx d d (lift p) = M) <-> generated mats M].
Proof. exact: gen_mats_members. Qed.
Example ex_C58_finite : [/\ (0 < size sl22)%N, uniq sl22 & all (square 2) sl22].
Proof. by split; [vm_compute | vm_compute | exact: sl22_square]. Qed.

(* a shear over the rational numbers, or any numeric field, has infinite order: the loop does not end.  (In the code the
   entries are 64-bit integers, which makes the group finite but far too large) *)
Section Shear.
Variable F : numFieldType.
Definition shear : mat F := [:: [:: 1; 1]; [:: 0; 1]].
Lemma shear_square : square 2 shear.
Proof.
apply: (@unit2 _ _ ([:: [:: 1; -1]; [:: 0; 1]])) => //.
apply/eqP; rewrite /mull /= /dot /= !(mulr0, mul0r, mulr1, mul1r, addr0, add0r, addNr, addrN).
by rewrite /idl /mkmat /mkseq /=.
Qed.
Example ex_C58_infinite fuel : gen_mats (mull 2) [::] fuel [:: shear] = None.
Proof.
case e: gen_mats => [r|] //; have sq : all (square 2) [:: shear] by rewrite /= shear_square.
have [_ h] := @C58_terminates _ 2 [:: shear] isT isT sq; have [|S hS] := h; first by exists fuel, r.
have pow n : word_prod 2 [:: shear] (nseq n 0%N) = \matrix_(i, j) (if i == j then 1 else if (i == 0%N :> nat) then n%:R else 0).
  elim: n => [|n IH]; first by apply/matrixP => i j; rewrite !mxE; case: (i == j); case: (_ == 0%N :> nat).
  rewrite /= IH; apply/matrixP => i j; rewrite !mxE !big_ord_recr big_ord0 !mxE /= add0r.
  case: i => [[|[|i]] hi] //; case: j => [[|[|j]] hj] //=; rewrite /ent /= -?[n.+1]addn1 ?natrD.
  all: rewrite ?mul1r ?mulr0 ?mul0r ?mulr1 ?addr0 ?add0r //.
pose L := [seq word_prod 2 [:: shear] (nseq n 0%N) | n <- iota 1 (size S).+1].
have uL : uniq L.
  rewrite map_inj_in_uniq ?iota_uniq // => a b _ _ /matrixP /(_ ord0 (lift ord0 ord0)); rewrite !pow !mxE /=.
  by move/eqP; rewrite eqr_nat => /eqP.
have : {subset L <= S}.
  move=> M /mapP [n]; rewrite mem_iota => /andP [n1 _] ->; apply: hS; exists (nseq n 0%N); split=> //; first by case: n n1.
  by apply/allP => i /nseqP [-> _].
by move/(uniq_leq_size uL); rewrite size_map size_iota ltnn.
Qed.
End Shear.

Print Assumptions C58_terminates.
Print Assumptions C58_fuel.
Print Assumptions C58_finite_field.
Print Assumptions C58_members.
