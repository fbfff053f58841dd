(* Symplectic spaces: the facts about the symplectic form on F^(n+n) used in the proofs about quantum codes. *)
From mathcomp Require Import all_ssreflect all_algebra zify ring.
From Verif Require Import LinAlg RowReduce Classical ClassicalProofs.
Set Implicit Arguments.
Unset Strict Implicit.
Unset Printing Implicit Defensive.
Import GRing.Theory.
Local Open Scope ring_scope.

Section Symplectic.
Variable F : fieldType.

(* matrix of the form (u, v) |-> u_x . v_z - u_z . v_x *)
Definition symJ n : 'M[F]_(n + n) := block_mx 0 1%:M (- 1%:M) 0.

Lemma symJ_tr n : (symJ n)^T = - symJ n.
Proof. by rewrite /symJ tr_block_mx !trmx0 linearN /= !trmx1 opp_block_mx oppr0 opprK. Qed.

Lemma symJ_sq n : symJ n *m symJ n = - 1%:M.
Proof.
rewrite /symJ mulmx_block !mul0mx !mulmx0 !mul1mx mulmx1 !add0r !addr0.
by rewrite [in RHS]scalar_mx_block opp_block_mx oppr0.
Qed.

Lemma symJ_unit n : symJ n \in unitmx.
Proof. by apply: (@mulmx1_unit _ _ (symJ n) (- symJ n) _).1; rewrite mulmxN symJ_sq opprK. Qed.

Lemma symJ_row n (x z : 'rV[F]_n) : row_mx x z *m symJ n = row_mx (- z) x.
Proof. by rewrite /symJ mul_row_block !mulmx0 mulmx1 add0r addr0 mulmxN mulmx1. Qed.

Lemma symJ_mx m n (X Z : 'M[F]_(m, n)) : row_mx X Z *m symJ n = row_mx (- Z) X.
Proof. by rewrite /symJ mul_row_block !mulmx0 mulmx1 add0r addr0 mulmxN mulmx1. Qed.

(* the form vanishes on the diagonal *)
Lemma symJ_diag n (u : 'rV[F]_(n + n)) : u *m symJ n *m u^T = 0.
Proof.
rewrite -[u]hsubmxK symJ_row tr_row_mx mul_row_col mulNmx.
set x := lsubmx u; set z := rsubmx u.
by rewrite -[x *m z^T]trmxK trmx_mul trmxK [X in _ + X]mx11_scalar mxE -mx11_scalar addNr.
Qed.

Lemma symJ_antisym m p n (A : 'M[F]_(m, n + n)) (B : 'M[F]_(p, n + n)) :
  B *m symJ n *m A^T = - (A *m symJ n *m B^T)^T.
Proof. by rewrite !trmx_mul trmxK symJ_tr mulNmx mulmxN opprK mulmxA. Qed.

(* symplectic complement *)
Definition scomp m n (G : 'M[F]_(m, n + n)) : 'M[F]_(n + n) := kermx (G *m symJ n)^T.

Lemma scompP {m p n} {G : 'M[F]_(m, n + n)} {V : 'M[F]_(p, n + n)} :
  reflect (G *m symJ n *m V^T = 0) (V <= scomp G)%MS.
Proof.
apply: (iffP sub_kermxP) => h.
  by rewrite -[LHS]trmxK trmx_mul trmxK h trmx0.
by rewrite -[LHS]trmxK trmx_mul trmxK h trmx0.
Qed.

Lemma scompP' {m p n} {G : 'M[F]_(m, n + n)} {V : 'M[F]_(p, n + n)} :
  reflect (V *m symJ n *m G^T = 0) (V <= scomp G)%MS.
Proof.
apply: (iffP scompP) => h; first by rewrite symJ_antisym h trmx0 oppr0.
by rewrite symJ_antisym h trmx0 oppr0.
Qed.

Lemma rank_mulJ m n (G : 'M[F]_(m, n + n)) : \rank (G *m symJ n) = \rank G.
Proof. by rewrite mxrankMfree // row_free_unit symJ_unit. Qed.

Lemma rank_scomp m n (G : 'M[F]_(m, n + n)) : \rank (scomp G) = (n + n - \rank G)%N.
Proof. by rewrite mxrank_ker mxrank_tr rank_mulJ. Qed.

Lemma scomp_anti m p n (A : 'M[F]_(m, n + n)) (B : 'M[F]_(p, n + n)) : (A <= B)%MS -> (scomp B <= scomp A)%MS.
Proof.
move=> /submxP [D ->]; apply/scompP; have /scompP h : (scomp B <= scomp B)%MS by [].
by rewrite -!mulmxA [B *m _]mulmxA h mulmx0.
Qed.

Lemma scomp_eqmx m p n (A : 'M[F]_(m, n + n)) (B : 'M[F]_(p, n + n)) : (A :=: B)%MS -> (scomp A :=: scomp B)%MS.
Proof. by move=> e; apply/eqmxP; rewrite !scomp_anti ?e. Qed.

Lemma scompK m n (G : 'M[F]_(m, n + n)) : (scomp (scomp G) :=: G)%MS.
Proof.
have sub : (G <= scomp (scomp G))%MS by apply/scompP'; apply/scompP.
apply/eqmxP; rewrite sub andbT -(geq_leqif (mxrank_leqif_sup sub)) !rank_scomp subKn //.
exact: rank_leq_col.
Qed.

Lemma scomp_col m p n (A : 'M[F]_(m, n + n)) (B : 'M[F]_(p, n + n)) :
  (scomp (col_mx A B) :=: scomp A :&: scomp B)%MS.
Proof.
apply/eqmxP; apply/andP; split; last first.
  apply/scompP; rewrite mul_col_mx mul_col_mx; apply/eqP; rewrite col_mx_eq0.
  by apply/andP; split; apply/eqP/scompP; [exact: capmxSl | exact: capmxSr].
rewrite sub_capmx; apply/andP; split; apply: scomp_anti.
  by rewrite -addsmxE addsmxSl.
by rewrite -addsmxE addsmxSr.
Qed.

(* centre of the gauge group *)
Lemma center_comp m n (G : 'M[F]_(m, n + n)) :
  (scomp (col_mx G (scomp G)) :=: G :&: scomp G)%MS.
Proof.
apply: eqmx_trans (scomp_col _ _) _; rewrite capmxC.
by apply: cap_eqmx; first exact: scompK.
Qed.

(* rank of an alternating matrix is even *)
Lemma alt_rank_even m (A : 'M[F]_m) : A^T = - A -> (forall i, A i i = 0) -> exists g, \rank A = g.*2.
Proof.
have [r le] := ubnP (\rank A); elim: r A le => // r IH A le aT d0.
have [/eqP -> | nz] := boolP (A == 0); first by exists 0%N; rewrite mxrank0.
have {nz} [i [j nz]] : exists i j, A i j != 0.
  have : [exists i, exists j, A i j != 0].
    move: nz; apply: contraNT => /existsPn h; apply/eqP/matrixP => i j; rewrite mxE.
    by apply/eqP; move: (h i); apply: contraNT => z; apply/existsP; exists j.
  by case/existsP => i /existsP [j nz']; exists i, j.
set a := A i j in nz.
have Aji p q : A q p = - A p q by move/matrixP: aT => /(_ p q); rewrite !mxE.
pose u := row i A; pose v := row j A.
pose B := A - a^-1 *: (u^T *m v) + a^-1 *: (v^T *m u).
have Be p q : B p q = A p q - a^-1 * (A i p * A j q) + a^-1 * (A j p * A i q).
  by rewrite /B !mxE !big_ord1 !mxE.
have eB : B = A - a^-1 *: (u^T *m v) + a^-1 *: (v^T *m u) by [].
clearbody B.
have Bi q : B i q = 0.
  by rewrite Be d0 mul0r mulr0 subr0 [A j i]Aji -/a mulNr mulrN mulrA mulVf // mul1r subrr.
have Bj q : B j q = 0.
  by rewrite Be d0 mul0r mulr0 addr0 -/a mulrA mulVf // mul1r subrr.
have BT : B^T = - B.
  by apply/matrixP => p q; rewrite [LHS]mxE [RHS]mxE !Be [A q p]Aji; ring.
have Bd p : B p p = 0 by rewrite Be d0 add0r [A j p * A i p]mulrC addNr.
have rk : \rank A = (\rank B + 2)%N.
  pose W := col_mx u v; pose S : 'M[F]_(m, 1 + 1) := row_mx (delta_mx i 0) (delta_mx j 0).
  have WS : W *m S = a *: symJ 1.
    rewrite /W /S mul_col_row -!colE /symJ scale_block_mx !scaler0 scalerN scale_scalar_mx mulr1.
    congr block_mx; apply/matrixP => p q; rewrite !ord1 !mxE ?d0 ?eqxx ?mulr1n //=.
    by rewrite [LHS]Aji.
  have BS : B *m S = 0.
    rewrite /S mul_mx_row -!colE -row_mx0; congr row_mx; apply/matrixP => p q; rewrite !mxE.
      by move/matrixP: BT => /(_ i p); rewrite !mxE Bi oppr0.
    by move/matrixP: BT => /(_ j p); rewrite !mxE Bj oppr0.
  have uS : a *: symJ 1 \in unitmx by rewrite unitmxZ ?symJ_unit // unitfE.
  have fW : row_free W.
    by apply/row_freeP; exists (S *m invmx (a *: symJ 1)); rewrite mulmxA WS mulmxV.
  have e : (A :=: W + B)%MS.
    have su : (u <= A)%MS by exact: row_sub.
    have sv : (v <= A)%MS by exact: row_sub.
    apply/eqmxP/andP; split; last first.
      rewrite addsmx_sub /W col_mx_sub su sv eB; apply: addmx_sub; first apply: addmx_sub => //.
        by rewrite eqmx_opp scalemx_sub // mulmx_sub.
      by rewrite scalemx_sub // mulmx_sub.
    have -> : A = B + a^-1 *: (u^T *m v) - a^-1 *: (v^T *m u).
      by rewrite eB addrAC addrK subrK.
    have su' : (u <= W + B)%MS by apply: submx_trans (addsmxSl _ _); rewrite /W -addsmxE addsmxSl.
    have sv' : (v <= W + B)%MS by apply: submx_trans (addsmxSl _ _); rewrite /W -addsmxE addsmxSr.
    apply: addmx_sub; first apply: addmx_sub; first exact: addsmxSr.
      by rewrite scalemx_sub // mulmx_sub.
    by rewrite eqmx_opp scalemx_sub // mulmx_sub.
  rewrite e mxrank_disjoint_sum; first by move/eqP: fW => ->; rewrite addnC.
  have [/submxP [D1 e1] /submxP [D2 e2]] : (W :&: B <= W)%MS /\ (W :&: B <= B)%MS by rewrite capmxSl capmxSr.
  have : (W :&: B)%MS *m S = 0 by rewrite e2 -mulmxA BS mulmx0.
  rewrite e1 -mulmxA WS => /(congr1 (mulmx^~ (invmx (a *: symJ 1)))).
  by rewrite -mulmxA mulmxV // mulmx1 mul0mx => ->; rewrite mul0mx.
have [g rg] : exists g, \rank B = g.*2 by apply: IH => //; move: le; rewrite rk; lia.
by exists g.+1; rewrite rk rg doubleS addn2.
Qed.

Lemma rank_center m n (G : 'M[F]_(m, n + n)) :
  exists g, \rank G = (\rank (G :&: scomp G)%MS + g.*2)%N.
Proof.
have e := mxrank_mul_ker G (G *m symJ n)^T.
have [g rg] : exists g, \rank (G *m (G *m symJ n)^T) = g.*2.
  apply: alt_rank_even => [|i].
    by rewrite trmx_mul trmxK trmx_mul symJ_tr mulNmx mulmxN opprK mulmxA.
  transitivity ((row i G *m symJ n *m (row i G)^T) 0 0); last by rewrite symJ_diag mxE.
  rewrite [LHS]mxE [RHS]mxE; apply: eq_bigr => k _; rewrite mulrC; congr (_ * _); last by rewrite !mxE.
  by rewrite !mxE; apply: eq_bigr => l _; rewrite !mxE.
by exists g; rewrite -rg addnC e.
Qed.

Lemma rank_center_le m n (G : 'M[F]_(m, n + n)) : (\rank G + \rank (G :&: scomp G)%MS <= n + n)%N.
Proof.
have := mxrankS (capmxSr G (scomp G)); rewrite rank_scomp; have := rank_leq_col G; lia.
Qed.
End Symplectic.
