(* Generalized surface codes: logical operators and distances.  Matrix form of the chain complexes of ChainInst.v
   (qldpc/objects.py:464-551 and qldpc/codes/quantum.py:1525-1564). *)
From mathcomp Require Import all_ssreflect all_algebra zify.
From mathcomp.real_closed Require Import mxtens.
From Verif Require Import LinAlg RowReduce Classical ClassicalProofs ClassicalProofs2 Families FamiliesProofs Kron Symplectic Quantum QuantumProofs
  ClassicalDist Css CssProofs Product QuantumDist CssDist ShpDist HgpDist Chain ChainInst.
Set Implicit Arguments.
Unset Strict Implicit.
Unset Printing Implicit Defensive.
Import GRing.Theory.
Local Open Scope ring_scope.

(* ============================================================================== model *)
(* quantum.py:1546-1548 and common.py:1599-1602: the distances that GeneralizedSurfaceCode(size, dim, field, periodic) stores *)
Definition surface_state (F : fieldType) (size dim : nat) (c : csscode F) : dstate :=
  DState (Some (Dist (size ^ (dim - 1)))) (Some (Dist size)) (Some (Dist (minn (size ^ (dim - 1)) size))) (c_x c == c_z c).

(* ============================================================================= proofs *)
Section Kunneth.
Variable F : fieldType.

Lemma rows_sub m n p (V : 'M[F]_(m, n)) (A : 'M[F]_(p, n)) : (forall i, row i V <= A)%MS -> exists C, V = C *m A.
Proof. by move=> h; apply/submxP/row_subP. Qed.

Lemma row0P m n p (V : 'M[F]_(m, n)) (A : 'M[F]_(n, p)) i : V *m A = 0 -> row i V *m A = 0.
Proof. by move=> h; rewrite -row_mul h row0. Qed.

(* cocycles of a product that vanish on the given cycles are coboundaries *)
Lemma kun_co c0 c1 c2 k k0 l0 l1 ka ke (D1 : 'M[F]_(c0, c1)) (D2 : 'M[F]_(c1, c2)) (Z : 'M[F]_(k, c1)) (gz gx : 'M[F]_(k0, c0))
  (L : 'M[F]_(l0, l1)) (a : 'M[F]_(ka, l0)) (e : 'M[F]_(ke, l1)) (U : 'M[F]_(c1, l0)) (W : 'M[F]_(c0, l1)) :
  D1 *m Z^T = 0 -> (forall v : 'rV_c1, v *m D2 = 0 -> v *m Z^T = 0 -> (v <= D1)%MS) ->
  gx *m D1 = 0 -> (forall w : 'rV_c0, w *m D1 = 0 -> w = w *m gz^T *m gx) ->
  (forall y : 'rV_l0, y *m L = 0 -> y *m a^T = 0 -> y = 0) ->
  L *m e^T = 0 -> (forall y : 'rV_l1, y *m e^T = 0 -> (y <= L)%MS) ->
  D2^T *m U = 0 -> U *m L = D1^T *m W -> Z *m U *m a^T = 0 -> gz *m W *m e^T = 0 ->
  exists C : 'M_(c0, l0), U = D1^T *m C /\ W = C *m L.
Proof.
move=> dz hE gx0 hG hA le hB du ul za ge.
have zu : Z *m U = 0.
  apply/row_matrixP => i; rewrite row0; apply: hA; last exact: row0P.
  apply: row0P; rewrite -mulmxA ul mulmxA.
  have zd : Z *m D1^T = 0 by apply: trmx_inj; rewrite trmx_mul trmxK dz trmx0.
  by rewrite zd mul0mx.
have [C0t eC0] : exists C, U^T = C *m D1.
  apply: rows_sub => i; apply: hE; apply: row0P; apply: trmx_inj; first by rewrite trmx_mul trmxK du trmx0.
  by rewrite trmx_mul !trmxK zu trmx0.
pose C0 := C0t^T; have eU : U = D1^T *m C0 by apply: trmx_inj; rewrite trmx_mul !trmxK.
pose W' := W - C0 *m L.
have dW : D1^T *m W' = 0 by rewrite mulmxBr mulmxA -eU -ul subrr.
have eW : W' = gx^T *m (gz *m W').
  apply: trmx_inj; rewrite !trmx_mul trmxK; apply/row_matrixP => i; rewrite row_mul.
  have := hG (row i W'^T); rewrite -!row_mul; apply.
  have wd : W'^T *m D1 = 0 by apply: trmx_inj; rewrite trmx_mul trmxK dW trmx0.
  by rewrite wd row0.
have [Y eY] : exists Y, gz *m W' = Y *m L.
  apply: rows_sub => i; apply: hB; apply: row0P.
  by rewrite mulmxBr mulmxBl ge -!mulmxA le !mulmx0 subrr.
exists (C0 + gx^T *m Y); split; last by rewrite mulmxDl -mulmxA -eY -eW addrC subrK.
by rewrite mulmxDr -eU mulmxA -trmx_mul gx0 trmx0 mul0mx addr0.
Qed.

(* cycles of a product on which the given cocycles vanish are boundaries *)
Lemma kun_cy c0 c1 c2 k k0 l0 l1 kb kf (D1 : 'M[F]_(c0, c1)) (D2 : 'M[F]_(c1, c2)) (Z X : 'M[F]_(k, c1)) (gx : 'M[F]_(k0, c0))
  (L : 'M[F]_(l0, l1)) (b : 'M[F]_(kb, l0)) (f : 'M[F]_(kf, l1)) (U : 'M[F]_(c1, l0)) (W : 'M[F]_(c0, l1)) :
  D1 *m Z^T = 0 -> X *m Z^T = 1%:M -> (forall v : 'rV_c1, v *m D1^T = 0 -> v *m X^T = 0 -> (v <= D2^T)%MS) ->
  gx *m D1 = 0 -> (forall w : 'rV_c0, w *m gx^T = 0 -> (w <= D1^T)%MS) ->
  b *m L = 0 -> (forall t : 'rV_l0, t *m b^T = 0 -> (t <= L^T)%MS) ->
  (forall y : 'rV_l1, y *m L^T = 0 -> y *m f^T = 0 -> y = 0) ->
  D1 *m U + W *m L^T = 0 -> X *m U *m b^T = 0 -> gx *m W *m f^T = 0 ->
  exists P Q, U = D2 *m P - Q *m L^T /\ W = D1 *m Q.
Proof.
move=> dz xz hE gx0 hG bl hB hA cyc xu gw.
have gW : gx *m W = 0.
  apply/row_matrixP => i; rewrite row0; apply: hA; last exact: row0P.
  apply: row0P; apply/eqP; rewrite -oppr_eq0 -mulmxA.
  have -> : W *m L^T = - (D1 *m U) by apply/eqP; rewrite -addr_eq0 addrC cyc.
  by rewrite mulmxN mulmxA gx0 mul0mx !oppr0.
have [Q0t eQ0] : exists C, W^T = C *m D1^T.
  by apply: rows_sub => i; apply: hG; apply: row0P; apply: trmx_inj; rewrite trmx_mul !trmxK gW trmx0.
pose Q0 := Q0t^T; have eW : W = D1 *m Q0 by apply: trmx_inj; rewrite trmx_mul !trmxK.
pose U' := U + Q0 *m L^T.
have dU : D1 *m U' = 0 by rewrite mulmxDr mulmxA -eW.
have Lb : L^T *m b^T = 0 by rewrite -trmx_mul bl trmx0.
have [S eS] : exists S, X *m U' = S *m L^T.
  apply: rows_sub => i; apply: hB; apply: row0P.
  by rewrite mulmxDr mulmxDl xu -!mulmxA Lb !mulmx0 addr0.
have [Pt eP] : exists C, (U' - Z^T *m (X *m U'))^T = C *m D2^T.
  apply: rows_sub => i; apply: hE; apply: row0P; apply: trmx_inj; rewrite trmx_mul !trmxK trmx0.
    by rewrite mulmxBr dU (mulmxA D1) dz mul0mx subrr.
  by rewrite mulmxBr (mulmxA X Z^T) xz mul1mx subrr.
exists Pt^T, (Q0 - Z^T *m S); split; last by rewrite mulmxBr (mulmxA D1) dz mul0mx subr0.
have -> : D2 *m Pt^T = U' - Z^T *m (X *m U') by apply: trmx_inj; rewrite eP trmx_mul trmxK.
by rewrite mulmxBl -mulmxA -eS opprB addrA subrK /U' addrK.
Qed.

(* ------------------------------------------------------------------------ pairs of matrices *)
Section Pairs.
Variables (p q r s : nat).
Definition gu (w : 'rV[F]_(p * q + r * s)) : 'M[F]_(p, q) := unvec (lsubmx w).
Definition gw (w : 'rV[F]_(p * q + r * s)) : 'M[F]_(r, s) := unvec (rsubmx w).
Definition gm (U : 'M[F]_(p, q)) (W : 'M[F]_(r, s)) : 'rV[F]_(p * q + r * s) := row_mx (tovec U) (tovec W).

Lemma gu_gm U W : gu (gm U W) = U. Proof. by rewrite /gu row_mxKl tovecK. Qed.
Lemma gw_gm U W : gw (gm U W) = W. Proof. by rewrite /gw row_mxKr tovecK. Qed.
Lemma gm_g w : gm (gu w) (gw w) = w. Proof. by rewrite /gm /gu /gw !unvecK hsubmxK. Qed.
Lemma supp_g w : supp w = (supp (gu w) + supp (gw w))%N.
Proof. by rewrite /gu /gw !supp_unvec -supp_row_mx hsubmxK. Qed.
Lemma supp_gm U W : supp (gm U W) = (supp U + supp W)%N.
Proof. by rewrite supp_g gu_gm gw_gm. Qed.
End Pairs.

Lemma unvecN m n (c : 'rV[F]_(m * n)) : unvec (- c) = - unvec c. Proof. by apply/matrixP => i j; rewrite !mxE. Qed.
Lemma unvecD m n (c d : 'rV[F]_(m * n)) : unvec (c + d) = unvec c + unvec d. Proof. by apply/matrixP => i j; rewrite !mxE. Qed.

Lemma tovec_dot m n (U V : 'M[F]_(m, n)) : tovec U *m (tovec V)^T = (\tr (U^T *m V))%:M.
Proof.
apply/rowP => k; rewrite (ord1 k) [LHS]mxE big_tens [RHS]mxE eqxx mulr1n /mxtrace.
under [RHS]eq_bigr => j _ do rewrite mxE.
rewrite [RHS]exchange_big /=; apply: eq_bigr => i _; apply: eq_bigr => j _.
by rewrite !mxE mxtens_indexK.
Qed.

Lemma dot_outer m n (U : 'M[F]_(m, n)) (x : 'rV[F]_m) (y : 'rV[F]_n) : tovec U *m (tovec (x^T *m y))^T = x *m U *m y^T.
Proof.
rewrite tovec_dot mulmxA mxtrace_mulC mulmxA; have -> : (x *m U)%R = (U^T *m x^T)^T by rewrite trmx_mul !trmxK.
rewrite -trmx_mul -mulmxA.
have e (t : 'M[F]_1) : (\tr t)%:M = t^T.
  by apply/matrixP => i j; rewrite (ord1 i) (ord1 j) !mxE /mxtrace big_ord1 eqxx mulr1n.
by rewrite e.
Qed.

Section Product.
Variables (c0 c1 c2 l0 l1 : nat) (D1 : 'M[F]_(c0, c1)) (D2 : 'M[F]_(c1, c2)) (L : 'M[F]_(l0, l1)).
Definition P1 : 'M[F]_(c0 * l0, c1 * l0 + c0 * l1) := row_mx (D1 *t 1%:M) (1%:M *t L).
Definition P2 : 'M[F]_(c1 * l0 + c0 * l1, c2 * l0 + c1 * l1) := block_mx (D2 *t 1%:M) (- (1%:M *t L)) 0 (D1 *t 1%:M).
Implicit Types w : 'rV[F]_(c1 * l0 + c0 * l1).

Lemma P12 : D1 *m D2 = 0 -> P1 *m P2 = 0.
Proof.
move=> e; rewrite /P1 /P2 mul_row_block mulmx0 addr0 mulmxN !tensmx_mul e tens0mx !mulmx1 !mul1mx addNr.
by rewrite row_mx0.
Qed.

Lemma sub_P1 w : (w <= P1)%MS <-> exists C : 'M_(c0, l0), gu w = D1^T *m C /\ gw w = C *m L.
Proof.
split=> [/submxP [c ->] | [C [e1 e2]]].
  by exists (unvec c); rewrite /gu /gw mul_mx_row row_mxKl row_mxKr !unvec_mul !trmx1 mulmx1 mul1mx.
apply/submxP; exists (tovec C); rewrite -[w]gm_g e1 e2 /P1 mul_mx_row /gm; congr row_mx; apply: unvec_inj;
  by rewrite unvec_mul !tovecK ?trmx1 ?mulmx1 ?mul1mx.
Qed.

Lemma ker_P1 w : w *m P1^T = 0 <-> D1 *m gu w + gw w *m L^T = 0.
Proof.
rewrite -{1}[w]hsubmxK /P1 tr_row_mx mul_row_col; set y := _ + _.
have -> : D1 *m gu w + gw w *m L^T = unvec y by rewrite /y unvecD !trmx_tens !unvec_mul !trmx1 mulmx1 mul1mx trmxK.
by split=> [-> | /eqP]; [exact: unvec0 | rewrite unvec_eq0 => /eqP].
Qed.

Lemma ker_P2 w : w *m P2 = 0 <-> D2^T *m gu w = 0 /\ gu w *m L = D1^T *m gw w.
Proof.
rewrite -{1}[w]hsubmxK /P2 mul_row_block mulmx0 addr0; set x := _ *m _; set y := _ + _.
have ex : D2^T *m gu w = unvec x by rewrite unvec_mul mulmx1.
have ey : D1^T *m gw w - gu w *m L = unvec y by rewrite /y unvecD mulmxN unvecN !unvec_mul trmx1 mulmx1 mul1mx addrC.
split=> [h | [h1 h2]].
  have : row_mx x y = row_mx 0 0 by rewrite h row_mx0.
  case/eq_row_mx => x0 y0; rewrite ex x0 unvec0; split=> //; apply/eqP; rewrite eq_sym -subr_eq0 ey y0.
  by rewrite unvec0.
have -> : x = 0 by apply: unvec_inj; rewrite -ex h1 unvec0.
have -> : y = 0 by apply: unvec_inj; rewrite -ey h2 subrr unvec0.
by rewrite row_mx0.
Qed.

Lemma sub_P2 w : (w <= P2^T)%MS <-> exists P Q, gu w = D2 *m P - Q *m L^T /\ gw w = D1 *m Q.
Proof.
have e : P2^T = block_mx (D2^T *t 1%:M) 0 (- (1%:M *t L^T)) (D1^T *t 1%:M).
  by rewrite /P2 tr_block_mx trmx0 linearN /= !trmx_tens !trmx1.
rewrite e; split=> [/submxP [c ->] | [P [Q [e1 e2]]]].
  rewrite -[c]hsubmxK; move: (lsubmx c) (rsubmx c) => x y.
  exists (unvec x), (unvec y); rewrite mul_row_block mulmx0 add0r /gu /gw row_mxKl row_mxKr.
  by rewrite unvecD mulmxN unvecN !unvec_mul !trmx1 !mulmx1 !mul1mx !trmxK.
apply/submxP; exists (row_mx (tovec P) (tovec Q)); rewrite mul_row_block mulmx0 add0r -[w]gm_g e1 e2 /gm; congr row_mx;
  apply: unvec_inj; rewrite ?unvecD ?mulmxN ?unvecN !unvec_mul !tovecK ?trmx1 ?trmxK ?mulmx1 ?mul1mx //.
Qed.
End Product.
End Kunneth.

(* ------------------------------------------------------------------- the invariant of the loop *)
Section Invariant.
Variable F : fieldType.

Lemma supp_outer m n (x : 'rV[F]_m) (y : 'rV[F]_n) : supp (x^T *m y) = (supp x * supp y)%N.
Proof.
rewrite /supp !big_ord1 big_distrl /=; apply: eq_bigr => i _; rewrite big_distrr; apply: eq_bigr => j _.
by rewrite !mxE big_ord1 mxE mulf_eq0 negb_or; case: (x 0 i != 0); case: (y 0 j != 0).
Qed.
Lemma supp_tovec m n (U : 'M[F]_(m, n)) : supp (tovec U) = supp U.
Proof. by rewrite -supp_unvec tovecK. Qed.
Lemma supp_const n : supp (const_mx 1 : 'rV[F]_n) = n.
Proof. by rewrite /supp big_ord1; under eq_bigr => i _ do rewrite mxE oner_eq0; rewrite sum_nat_const card_ord muln1. Qed.
Lemma supp_delta n (i : 'I_n) : supp (delta_mx 0 i : 'rV[F]_n) = 1%N.
Proof.
rewrite /supp big_ord1 (bigD1 i) //= mxE !eqxx oner_eq0 /= big1 ?addn0 // => j nj.
by rewrite mxE (negbTE nj) andbF eqxx.
Qed.
Lemma supp_cols m n (U : 'M[F]_(m, n)) T : (forall t, T <= supp (col t U))%N -> (T * n <= supp U)%N.
Proof.
move=> h; rewrite /supp exchange_big mulnC -[in X in (X <= _)%N](card_ord n) -sum_nat_const; apply: leq_sum => t _.
apply: leq_trans (h t) _; rewrite /supp; apply: leq_sum => i _; by rewrite big_ord1 mxE.
Qed.
Lemma supp_gt0 m n (U : 'M[F]_(m, n)) : U != 0 -> (0 < supp U)%N.
Proof.
case/mx_nz => i [j nz]; rewrite /supp (bigD1 i) //= (bigD1 j) //= nz; exact: ltn0Sn.
Qed.
Lemma supp_mulr m n p (U : 'M[F]_(m, n)) (V : 'M[F]_(n, p)) i : (supp (col i (U *m V)) <= supp U)%N.
Proof. by rewrite -supp_tr tr_col trmx_mul -(supp_tr U); apply: supp_row. Qed.
Lemma mx1_nz (t : 'M[F]_1) : t != 0 -> t 0 0 != 0.
Proof. by apply: contraNneq => e; apply/eqP/matrixP => i j; rewrite (ord1 i) (ord1 j) e mxE. Qed.
Lemma mx11_mul n (t : 'M[F]_1) (y : 'rV[F]_n) j : (t *m y) 0 j = t 0 0 * y 0 j.
Proof. by rewrite mxE big_ord1. Qed.

(* the two links of length n that occur: the transposed matrix L of a repetition code (K = 0) or a ring code (K = 1) *)
Record link (K n l1 : nat) (L : 'M[F]_(n, l1)) (a : 'rV[F]_n) (e f : 'M[F]_(K, l1)) : Prop := Link {
  l_a : supp a = 1%N; l_b0 : const_mx 1 *m L = 0 :> 'rV_l1; l_ba : const_mx 1 *m a^T = 1%:M :> 'M_1;
  l_ker : forall y : 'rV_n, y *m L = 0 -> y = y *m a^T *m const_mx 1;
  l_img : forall t : 'rV_n, t *m (const_mx 1 : 'rV_n)^T = 0 -> (t <= L^T)%MS;
  l_e : e = const_mx 1; l_e0 : L *m e^T = 0; l_ef : e *m f^T = 1%:M;
  l_eimg : forall y : 'rV_l1, y *m e^T = 0 -> (y <= L)%MS;
  l_eker : forall y : 'rV_l1, y *m L^T = 0 -> y = y *m f^T *m e;
  l_f : forall i, supp (row i f) = 1%N; l_n : (0 < K)%N -> l1 = n }.

(* cycles Z and cocycles X, dual to each other, that span homology and cohomology in degree one; weights; degree zero *)
Record core (K n T k c0 c1 c2 : nat) (D1 : 'M[F]_(c0, c1)) (D2 : 'M[F]_(c1, c2)) (Z X : 'M[F]_(k, c1)) (gz : 'M[F]_(K, c0)) : Prop := Core {
  k_12 : D1 *m D2 = 0; k_z : D1 *m Z^T = 0; k_x : X *m D2 = 0; k_xz : X *m Z^T = 1%:M;
  k_zw : forall j, supp (row j Z) = n; k_xw : forall j, supp (row j X) = T;
  k_co : forall v : 'rV_c1, v *m D2 = 0 -> v *m Z^T = 0 -> (v <= D1)%MS;
  k_cy : forall v : 'rV_c1, v *m D1^T = 0 -> v *m X^T = 0 -> (v <= D2^T)%MS;
  k_cow : forall v : 'rV_c1, v *m D2 = 0 -> v *m Z^T != 0 -> (T <= supp v)%N;
  k_cyw : forall v : 'rV_c1, v *m D1^T = 0 -> v *m X^T != 0 -> (n <= supp v)%N;
  k_g0 : (const_mx 1 : 'M_(K, c0)) *m D1 = 0; k_gxz : (const_mx 1 : 'M_(K, c0)) *m gz^T = 1%:M;
  k_gker : forall w : 'rV_c0, w *m D1 = 0 -> w = w *m gz^T *m const_mx 1;
  k_gimg : forall w : 'rV_c0, w *m (const_mx 1 : 'M_(K, c0))^T = 0 -> (w <= D1^T)%MS;
  k_gz : forall i, supp (row i gz) = 1%N; k_c0 : (0 < K)%N -> c0 = (T * n)%N }.

Section Step.
Variables (K n l1 T k c0 c1 c2 : nat) (L : 'M[F]_(n, l1)) (a : 'rV[F]_n) (e f : 'M[F]_(K, l1)).
Variables (D1 : 'M[F]_(c0, c1)) (D2 : 'M[F]_(c1, c2)) (Z X : 'M[F]_(k, c1)) (gz : 'M[F]_(K, c0)).
Hypothesis K1 : (K <= 1)%N.
Hypothesis hl : link L a e f.
Hypothesis hc : core n T D1 D2 Z X gz.
Notation b := (const_mx 1 : 'rV[F]_n).
Notation gx := (const_mx 1 : 'M[F]_(K, c0)).
Notation Q1 := (P1 D1 L).
Notation Q2 := (P2 D1 D2 L).
Definition Zl : 'M[F]_(k, c1 * n + c0 * l1) := \matrix_j gm ((row j Z)^T *m a) 0.
Definition Zr : 'M[F]_(K, c1 * n + c0 * l1) := \matrix_i gm 0 ((row i gz)^T *m row i e).
Definition Xl : 'M[F]_(k, c1 * n + c0 * l1) := \matrix_j gm ((row j X)^T *m b) 0.
Definition Xr : 'M[F]_(K, c1 * n + c0 * l1) := \matrix_i gm 0 ((row i gx)^T *m row i f).
Definition gz' : 'M[F]_(K, c0 * n) := \matrix_i tovec ((row i gz)^T *m a).

Lemma K_eq (i j : 'I_K) : i = j.
Proof. by case: i j => i hi [j hj]; apply: val_inj => /=; move: K1 hi hj; case: K => [|[|m]] //; clear; case: i; case: j. Qed.

Lemma gm_dot p q r s (w : 'rV[F]_(p * q + r * s)) U W : w *m (gm U W)^T = tovec (gu w) *m (tovec U)^T + tovec (gw w) *m (tovec W)^T.
Proof. by rewrite -{1}[w]gm_g /gm tr_row_mx mul_row_col. Qed.
Lemma tovec0 m p : tovec (0 : 'M[F]_(m, p)) = 0. Proof. by apply: unvec_inj; rewrite tovecK unvec0. Qed.

Lemma row_dot m (w : 'rV[F]_m) h (V : 'M[F]_(h, m)) j : (w *m V^T) 0 j = (w *m (row j V)^T) 0 0.
Proof. by rewrite !mxE; apply: eq_bigr => i _; rewrite !mxE. Qed.
Lemma dotl p q r s (w : 'rV[F]_(p * q + r * s)) x y : w *m (gm (x^T *m y) 0)^T = x *m gu w *m y^T.
Proof. by rewrite gm_dot dot_outer tovec0 trmx0 mulmx0 addr0. Qed.
Lemma dotr p q r s (w : 'rV[F]_(p * q + r * s)) x y : w *m (gm 0 (x^T *m y))^T = x *m gw w *m y^T.
Proof. by rewrite gm_dot dot_outer tovec0 trmx0 mulmx0 add0r. Qed.

Lemma rows0 m h (w : 'rV[F]_m) (V : 'M[F]_(h, m)) : (forall j, w *m (row j V)^T = 0) -> w *m V^T = 0.
Proof. by move=> hv; apply/rowP => j; rewrite row_dot hv !mxE. Qed.
Lemma rows1 m h (w : 'rV[F]_m) (V : 'M[F]_(h, m)) j : w *m V^T = 0 -> w *m (row j V)^T = 0.
Proof. by move=> h0; apply/matrixP => x y; rewrite (ord1 x) (ord1 y) -row_dot h0 !mxE. Qed.

Lemma k_zt : Z *m D1^T = 0. Proof. by apply: trmx_inj; rewrite trmx_mul trmxK (k_z hc) trmx0. Qed.
Lemma k_xt : D2^T *m X^T = 0. Proof. by rewrite -trmx_mul (k_x hc) trmx0. Qed.

Lemma Zl0 (w : 'rV[F]_(c1 * n + c0 * l1)) : w *m Zl^T = 0 <-> Z *m gu w *m a^T = 0.
Proof.
split=> h.
  apply/row_matrixP => j; rewrite row0 !row_mul -dotl.
  by have := rows1 j h; rewrite rowK.
apply: rows0 => j; rewrite rowK dotl -!row_mul h row0 //.
Qed.
Lemma Xl0 (w : 'rV[F]_(c1 * n + c0 * l1)) : w *m Xl^T = 0 <-> X *m gu w *m b^T = 0.
Proof.
split=> h.
  apply/row_matrixP => j; rewrite row0 !row_mul -dotl.
  by have := rows1 j h; rewrite rowK.
apply: rows0 => j; rewrite rowK dotl -!row_mul h row0 //.
Qed.
Lemma diag0 (M : 'M[F]_(K, c0)) (N : 'M[F]_(K, l1)) W : (forall i, row i M *m W *m (row i N)^T = 0) <-> M *m W *m N^T = 0.
Proof.
split=> h.
  apply/row_matrixP => i; rewrite row0; apply/rowP => j; rewrite !row_mul row_dot (K_eq j i) h !mxE //.
by move=> i; rewrite -row_mul; apply: rows1; rewrite -row_mul h row0.
Qed.
Lemma Zr0 (w : 'rV[F]_(c1 * n + c0 * l1)) : w *m Zr^T = 0 <-> gz *m gw w *m e^T = 0.
Proof.
rewrite -diag0; split=> h; first by move=> i; have := rows1 i h; rewrite rowK dotr.
by apply: rows0 => i; rewrite rowK dotr.
Qed.
Lemma Xr0 (w : 'rV[F]_(c1 * n + c0 * l1)) : w *m Xr^T = 0 <-> gx *m gw w *m f^T = 0.
Proof.
rewrite -diag0; split=> h; first by move=> i; have := rows1 i h; rewrite rowK dotr.
by apply: rows0 => i; rewrite rowK dotr.
Qed.
Lemma cmx0 m h1 h2 (w : 'rV[F]_m) (A : 'M_(h1, m)) (B : 'M_(h2, m)) : w *m (col_mx A B)^T = 0 <-> w *m A^T = 0 /\ w *m B^T = 0.
Proof.
rewrite tr_col_mx mul_mx_row; split=> [h | [-> ->]]; last exact: row_mx0.
by have : row_mx (w *m A^T) (w *m B^T) = row_mx 0 0 by [rewrite h row_mx0]; case/eq_row_mx.
Qed.

Lemma sum_K (g : 'I_K -> F) i : \sum_j g j = g i.
Proof. by rewrite (bigD1 i) //= big1 ?addr0 // => j; rewrite (K_eq j i) eqxx. Qed.
Lemma colM m p q (A : 'M[F]_(m, p)) (B : 'M[F]_(p, q)) t : col t (A *m B) = A *m col t B.
Proof. by apply/matrixP => i j; rewrite !mxE; apply: eq_bigr => x _; rewrite mxE. Qed.
Lemma colZ m p (t : 'I_p) : col t (0 : 'M[F]_(m, p)) = 0. Proof. by apply/matrixP => i j; rewrite !mxE. Qed.
Lemma mx_row m p (A : 'M[F]_(m, p)) i j : A i j = row i A 0 j. Proof. by rewrite mxE. Qed.

Lemma step_xz : col_mx Xl Xr *m (col_mx Zl Zr)^T = 1%:M.
Proof.
rewrite tr_col_mx mul_col_row scalar_mx_block; congr block_mx; apply/matrixP => i j; rewrite mx_row row_mul row_dot !rowK.
- rewrite dotl gu_gm mulmxA -mulmxA (l_ba hl) mulmx1 -[_ *m _]trmxK trmx_mul trmxK [LHS]mxE -row_dot -row_mul (k_xz hc).
  by rewrite !mxE eq_sym.
- by rewrite dotr gw_gm mulmx0 mul0mx !mxE.
- by rewrite dotl gu_gm mulmx0 mul0mx !mxE.
- rewrite dotr gw_gm.
  have e1 : row j gz *m (row i gx)^T = 1%:M.
    apply: trmx_inj; rewrite trmx_mul trmxK trmx1; apply/matrixP => x y.
    by rewrite (ord1 x) (ord1 y) -row_dot -row_mul (k_gxz hc) !mxE (K_eq i j) !eqxx.
  have e2 : row i f *m (row j e)^T = 1%:M.
    apply: trmx_inj; rewrite trmx_mul trmxK trmx1; apply/matrixP => x y.
    by rewrite (ord1 x) (ord1 y) -row_dot -row_mul (l_ef hl) !mxE (K_eq i j) !eqxx.
  by rewrite mulmxA e1 mul1mx e2 !mxE (K_eq i j) !eqxx.
Qed.

Lemma step_cow (v : 'rV[F]_(c1 * n + c0 * l1)) : v *m Q2 = 0 -> v *m (col_mx Zl Zr)^T != 0 -> (T * n <= supp v)%N.
Proof.
move=> /ker_P2 [h1 h2] nz; rewrite supp_g.
case: (eqVneq (Z *m gu v *m a^T) 0) => [z1 | /mx_nz [j [o nj]]].
  case: (eqVneq (gz *m gw v *m e^T) 0) => [z2 | /mx_nz [i [j nj]]].
    by case/eqP: nz; apply/cmx0; split; [apply/Zl0 | apply/Zr0].
  apply: leq_trans (leq_addl _ _); rewrite -(k_c0 hc); last exact: leq_ltn_trans (ltn_ord i).
  rewrite -supp_tr -[X in (X <= _)%N]mul1n; apply: supp_cols => r; rewrite -tr_row supp_tr; apply: supp_gt0.
  apply: contraNneq nj => rz.
  have hw : (gw v *m e^T)^T = (gw v *m e^T)^T *m gz^T *m gx.
    apply/row_matrixP => t; rewrite 2!row_mul; apply: (k_gker hc); rewrite -row_mul.
    have -> : (gw v *m e^T)^T *m D1 = 0; last by rewrite row0.
    by apply: trmx_inj; rewrite trmx_mul trmxK mulmxA -h2 -mulmxA (l_e0 hl) mulmx0 trmx0.
  have : (gw v *m e^T) r j = (gz *m gw v *m e^T) i j.
    have := congr1 (fun A : 'M[F]_(K, c0) => A j r) hw; rewrite [LHS]mxE => ->; rewrite mxE (sum_K _ i) [gx _ _]mxE mulr1.
    by rewrite -trmx_mul mulmxA [LHS]mxE.
  by move=> <-; rewrite mx_row row_mul rz mul0mx mxE.
apply: leq_trans (leq_addr _ _); apply: supp_cols => t; rewrite -supp_tr; apply: (k_cow hc).
  by apply: trmx_inj; rewrite trmx_mul trmxK -colM h1 colZ trmx0.
apply: contraNneq nj => z0; rewrite (ord1 o).
have er : row j (Z *m gu v) = row j (Z *m gu v) *m a^T *m b.
  by apply: (l_ker hl); rewrite -row_mul -mulmxA h2 mulmxA k_zt mul0mx row0.
have : (Z *m gu v) j t = (Z *m gu v *m a^T) j 0.
  by rewrite mx_row er mx11_mul [b _ _]mxE mulr1 -row_mul mxE.
move=> <-; have := congr1 (fun A : 'rV[F]_k => A 0 j) z0; rewrite -trmx_mul -colM !mxE => ->.
by [].
Qed.

Lemma step_cyw (v : 'rV[F]_(c1 * n + c0 * l1)) : v *m Q1^T = 0 -> v *m (col_mx Xl Xr)^T != 0 -> (n <= supp v)%N.
Proof.
move=> /ker_P1 h nz; rewrite supp_g.
have h2 : D1 *m gu v = - (gw v *m L^T) by apply/eqP; rewrite -addr_eq0 h.
have h3 : gw v *m L^T = - (D1 *m gu v) by rewrite h2 opprK.
case: (eqVneq (X *m gu v *m b^T) 0) => [z1 | nb].
  case: (eqVneq (gx *m gw v *m f^T) 0) => [z2 | /mx_nz [i [j nj]]].
    by case/eqP: nz; apply/cmx0; split; [apply/Xl0 | apply/Xr0].
  apply: leq_trans (leq_addl _ _); apply: (@leq_trans l1).
    by have K0 := leq_ltn_trans (leq0n _) (ltn_ord i); rewrite (l_n hl K0).
  rewrite -[X in (X <= _)%N]mul1n; apply: supp_cols => t; apply: supp_gt0; apply: contraNneq nj => cz.
  have er : row i (gx *m gw v) = row i (gx *m gw v) *m f^T *m e.
    by apply: (l_eker hl); rewrite -row_mul -mulmxA h3 mulmxN mulmxA (k_g0 hc) mul0mx oppr0 row0.
  have : (gx *m gw v) i t = (gx *m gw v *m f^T) i j.
    by rewrite mx_row er mxE (sum_K _ j) (l_e hl) [const_mx _ _ _]mxE mulr1 -row_mul mxE.
  move=> <-; have := congr1 (fun A : 'cV[F]_K => A i 0) (colM gx (gw v) t); rewrite cz mulmx0 !mxE => ->.
  by [].
apply: leq_trans (leq_addr _ _); apply: leq_trans (_ : supp (gu v *m b^T)^T <= _)%N.
  apply: (k_cyw hc).
    rewrite -trmx_mul mulmxA h2 mulNmx -mulmxA -trmx_mul (l_b0 hl) trmx0 mulmx0 oppr0 trmx0 //.
  by apply: contraNneq nb => z0; apply/eqP; apply: trmx_inj; rewrite -mulmxA trmx_mul z0 trmx0.
by rewrite supp_tr; have := supp_mulr (gu v) b^T 0; rewrite col_id.
Qed.

Lemma step_g0 : (const_mx 1 : 'M_(K, c0 * n)) *m Q1 = 0.
Proof.
apply/row_matrixP => i; rewrite row_mul row_const row0 /P1 mul_mx_row -[RHS]row_mx0.
have e0 : unvec (const_mx 1) = (row i gx)^T *m b.
  by apply/matrixP => x y; rewrite !mxE big_ord1 !mxE mulr1.
congr row_mx; apply: unvec_inj; rewrite unvec_mul unvec0 e0 ?trmx1 ?mulmx1 ?mul1mx.
  by rewrite mulmxA -trmx_mul -row_mul (k_g0 hc) row0 trmx0 mul0mx.
by rewrite -mulmxA (l_b0 hl) mulmx0.
Qed.

Lemma dot_gz (w : 'rV[F]_(c0 * n)) i : w *m (row i gz')^T = row i gz *m unvec w *m a^T.
Proof. by rewrite rowK -{1}[w]unvecK dot_outer. Qed.

Lemma step_gxz : (const_mx 1 : 'M_(K, c0 * n)) *m gz'^T = 1%:M.
Proof.
apply/matrixP => i j; rewrite mx_row row_mul row_dot row_const dot_gz.
have e0 : unvec (const_mx 1) = (row i gx)^T *m b.
  by apply/matrixP => x y; rewrite !mxE big_ord1 !mxE mulr1.
rewrite e0 mulmxA -mulmxA (l_ba hl) mulmx1 -[_ *m _]trmxK trmx_mul trmxK [LHS]mxE -row_dot -row_mul (k_gxz hc).
by rewrite !mxE eq_sym.
Qed.

Lemma sub_Q1t (w : 'rV[F]_(c0 * n)) P Q : unvec w = D1 *m P + Q *m L^T -> (w <= Q1^T)%MS.
Proof.
move=> ew; apply/submxP; exists (row_mx (tovec P) (tovec Q)); rewrite /P1 tr_row_mx mul_row_col.
by apply: unvec_inj; rewrite unvecD !trmx_tens !unvec_mul !tovecK !trmx1 !trmxK mulmx1 mul1mx.
Qed.

Lemma step_gker (w : 'rV[F]_(c0 * n)) : w *m Q1 = 0 -> w = w *m gz'^T *m const_mx 1.
Proof.
rewrite /P1 mul_mx_row => h.
have : row_mx (w *m (D1 *t 1%:M)) (w *m (1%:M *t L)) = row_mx 0 0 by rewrite h row_mx0.
case/eq_row_mx => /(congr1 (@unvec _ _ _)) + /(congr1 (@unvec _ _ _)); rewrite !unvec_mul !unvec0 trmx1 mulmx1 mul1mx => h1 h2.
have e1 : (unvec w)^T = (unvec w)^T *m gz^T *m gx.
  apply/row_matrixP => t; rewrite 2!row_mul; apply: (k_gker hc); rewrite -row_mul.
  have -> : (unvec w)^T *m D1 = 0; last by rewrite row0.
  by apply: trmx_inj; rewrite trmx_mul trmxK h1 trmx0.
have e2 : unvec w = unvec w *m a^T *m b.
  by apply/row_matrixP => t; rewrite 2!row_mul; apply: (l_ker hl); rewrite -row_mul h2 row0.
apply: unvec_inj; apply/matrixP => p q; rewrite e2 [RHS]mxE mx_row 2!row_mul mx11_mul [b _ _]mxE mulr1.
have -> : row p (unvec w) = row p gx^T *m (gz *m unvec w).
  by rewrite -row_mul; congr row; apply: trmx_inj; rewrite {1}e1 !trmx_mul trmxK.
rewrite -mulmxA mxE [RHS]mxE; apply: eq_bigr => i _; rewrite row_dot dot_gz -row_mul -row_mul.
by move: (gz *m unvec w *m a^T) => M; rewrite !mxE mul1r mulr1.
Qed.

Lemma step_gimg (w : 'rV[F]_(c0 * n)) : w *m (const_mx 1 : 'M_(K, c0 * n))^T = 0 -> (w <= Q1^T)%MS.
Proof.
move=> hw; have h0 : gx *m unvec w *m b^T = 0.
  apply/row_matrixP => i; rewrite row0 2!row_mul -dot_outer unvecK.
  have := rows1 i hw; rewrite !row_const.
  have -> : tovec ((const_mx 1 : 'rV[F]_c0)^T *m b) = const_mx 1; last by [].
  by apply: unvec_inj; rewrite tovecK; apply/matrixP => x y; rewrite !mxE big_ord1 !mxE mulr1.
have [Y eY] : exists Y, gx *m unvec w = Y *m L^T by apply: rows_sub => i; apply: (l_img hl); apply: row0P.
have [Pt eP] : exists C, (unvec w - gz^T *m (gx *m unvec w))^T = C *m D1^T.
  apply: rows_sub => i; apply: (k_gimg hc); apply: row0P; apply: trmx_inj; rewrite trmx_mul !trmxK trmx0.
  by rewrite mulmxBr (mulmxA gx gz^T) (k_gxz hc) mul1mx subrr.
apply: (@sub_Q1t w Pt^T (gz^T *m Y)); rewrite -mulmxA -eY.
have -> : D1 *m Pt^T = unvec w - gz^T *m (gx *m unvec w) by apply: trmx_inj; rewrite eP trmx_mul trmxK.
by rewrite subrK.
Qed.

Theorem step : core n (T * n) Q1 Q2 (col_mx Zl Zr) (col_mx Xl Xr) gz'.
Proof.
have a1 : b *m a^T = 1%:M := l_ba hl.
have ker_e t : D1 *m gu t + gw t *m L^T = 0 -> t *m Q1^T = 0 by move/ker_P1.
have rowsP m h (A : 'M[F]_(h, m)) p (B : 'M[F]_(m, p)) : (forall i, row i A *m B = 0) -> A *m B = 0.
  by move=> hr; apply/row_matrixP => i; rewrite row_mul hr row0.
split.
- exact/P12/(k_12 hc).
- apply: trmx_inj; rewrite trmx_mul trmxK trmx0; apply: rowsP => i; rewrite -[i]splitK; case: (split i) => j /=.
    rewrite rowKu rowK; apply/ker_P1; rewrite gu_gm gw_gm mul0mx addr0 mulmxA.
    have -> : D1 *m (row j Z)^T = 0 by apply: trmx_inj; rewrite trmx_mul trmxK -row_mul k_zt row0 trmx0.
    by rewrite mul0mx.
  rewrite rowKd rowK; apply/ker_P1; rewrite gu_gm gw_gm mulmx0 add0r -mulmxA -row_mul.
  have -> : e *m L^T = 0 by apply: trmx_inj; rewrite trmx_mul trmxK (l_e0 hl) trmx0.
  by rewrite row0 mulmx0.
- apply: rowsP => i; rewrite -[i]splitK; case: (split i) => j /=.
    rewrite rowKu rowK; apply/ker_P2; rewrite gu_gm gw_gm mulmx0 -mulmxA (l_b0 hl) mulmx0; split=> //.
    have -> : D2^T *m ((row j X)^T *m b) = 0 by rewrite mulmxA -trmx_mul -row_mul (k_x hc) row0 trmx0 mul0mx.
    by [].
  rewrite rowKd rowK; apply/ker_P2; rewrite gu_gm gw_gm mulmx0 mul0mx; split=> //.
  by rewrite mulmxA -trmx_mul -row_mul (k_g0 hc) row0 trmx0 mul0mx.
- exact: step_xz.
- move=> i; rewrite -[i]splitK; case: (split i) => j /=; rewrite ?rowKu ?rowKd rowK supp_gm supp_outer supp0.
    by rewrite (k_zw hc) (l_a hl) muln1 addn0.
  rewrite (k_gz hc) (l_e hl) row_const supp_const (l_n hl) ?mul1n //; exact: leq_ltn_trans (ltn_ord j).
- move=> i; rewrite -[i]splitK; case: (split i) => j /=; rewrite ?rowKu ?rowKd rowK supp_gm supp_outer supp0.
    by rewrite (k_xw hc) supp_const addn0.
  rewrite (l_f hl) row_const supp_const (k_c0 hc) ?muln1 //; exact: leq_ltn_trans (ltn_ord j).
- move=> v /ker_P2 [h1 h2] /cmx0 [/Zl0 h3 /Zr0 h4]; apply/sub_P1.
  apply: (kun_co (D2 := D2) (Z := Z) (gz := gz) (gx := gx) (a := a) (e := e)) h3 h4 => //.
  + exact: k_z hc.
  + exact: k_co hc.
  + exact: k_g0 hc.
  + exact: k_gker hc.
  + by move=> y /(l_ker hl) hy h0; rewrite hy h0 mul0mx.
  + exact: l_e0 hl.
  + exact: l_eimg hl.
- move=> v /ker_P1 h1 /cmx0 [/Xl0 h3 /Xr0 h4]; apply/sub_P2.
  apply: (kun_cy (D2 := D2) (Z := Z) (X := X) (gx := gx) (b := b) (f := f)) h3 h4 => //.
  + exact: k_z hc.
  + exact: k_xz hc.
  + exact: k_cy hc.
  + exact: k_g0 hc.
  + exact: k_gimg hc.
  + exact: l_b0 hl.
  + exact: l_img hl.
  + by move=> y /(l_eker hl) hy h0; rewrite hy h0 mul0mx.
- exact: step_cow.
- exact: step_cyw.
- exact: step_g0.
- exact: step_gxz.
- exact: step_gker.
- exact: step_gimg.
- by move=> i; rewrite rowK supp_tovec supp_outer (k_gz hc) (l_a hl).
- by move=> h; rewrite (k_c0 hc h).
Qed.
End Step.
End Invariant.

(* ------------------------------------------------------------------------ the model's arrays *)
Section Arrays.
Variable F : fieldType.
Notation arr := (Chain.arr F).
Notation kI := (kronI (fun (x : F) (b : bool) => x * b%:R)).
Notation Ik := (Ikron (fun (x : F) (b : bool) => x * b%:R)).
Notation sg := (signed (fun (x : F) k => x * (-1) ^+ k)).

Lemma tensor1 (A B : arr) c : f_tensor [:: A] [:: B] = Some c ->
  c = [:: hcat2 (kI A (nr B)) (sg (Ik (nr A) B) 0); vcat2 (sg (Ik (nc A) B) 1) (kI A (nc B))].
Proof.
rewrite /f_tensor /tensor_product /=.
have -> : blocks 0 (fun (x : F) (b : bool) => x * b%:R) (fun (x : F) k => x * (-1) ^+ k) [:: A] [:: B] 1 =
  [:: [:: kI A (nr B); sg (Ik (nr A) B) 0]] by [].
have -> : blocks 0 (fun (x : F) (b : bool) => x * b%:R) (fun (x : F) k => x * (-1) ^+ k) [:: A] [:: B] 2 =
  [:: [:: sg (Ik (nc A) B) 1]; [:: kI A (nc B)]] by [].
rewrite /block /=; case: (_ == _) => //=; case: (_ == _) => //= -[<-] //.
Qed.

Lemma tensor2 (A A' B : arr) c : f_tensor [:: A; A'] [:: B] = Some c ->
  take 2 c = [:: hcat2 (kI A (nr B)) (sg (Ik (nr A) B) 0);
    vcat2 (hcat2 (kI A' (nr B)) (sg (Ik (nc A) B) 1)) (hcat2 (zeros 0 (nr A * nc B) (nc A' * nr B)) (kI A (nc B)))].
Proof.
rewrite /f_tensor /tensor_product /=.
have -> : blocks 0 (fun (x : F) (b : bool) => x * b%:R) (fun (x : F) k => x * (-1) ^+ k) [:: A; A'] [:: B] 1 =
  [:: [:: kI A (nr B); sg (Ik (nr A) B) 0]] by [].
have -> : blocks 0 (fun (x : F) (b : bool) => x * b%:R) (fun (x : F) k => x * (-1) ^+ k) [:: A; A'] [:: B] 2 =
  [:: [:: kI A' (nr B); sg (Ik (nc A) B) 1]; [:: zeros 0 (nr A * nc B) (nc A' * nr B); kI A (nc B)]] by [].
move: (block (blocks _ _ _ _ _ 3)) => b3; rewrite /block /=.
case: (_ == _) => //=; case: (_ == _) => //=; case: (_ == _) => //=; case: (_ == _) => //=; case: b3 => //= b3 [<-] //.
Qed.

(* an array with its shape and its matrix *)
Definition is_arr m n (A : arr) (M : 'M[F]_(m, n)) : Prop := [/\ nr A = m, nc A = n & forall (i : 'I_m) (j : 'I_n), at2 A i j = M i j].

Lemma arr_kI m n p (A : arr) (M : 'M[F]_(m, n)) : is_arr A M -> is_arr (kI A p) (M *t (1%:M : 'M_p)).
Proof.
case=> em en h; split=> /= [||i j]; rewrite ?em ?en //.
by rewrite mxE mxE -h; congr (_ * _).
Qed.
Lemma arr_Ik m n p (A : arr) (M : 'M[F]_(m, n)) : is_arr A M -> is_arr (Ik p A) ((1%:M : 'M_p) *t M).
Proof.
case=> em en h; split=> /= [||i j]; rewrite ?em ?en //.
by rewrite mxE mxE -h mulrC; congr (_ * _).
Qed.
Lemma arr_sg0 m n (A : arr) (M : 'M[F]_(m, n)) : is_arr A M -> is_arr (sg A 0) M.
Proof. by case=> em en h; split=> //= i j; rewrite expr0 mulr1 h. Qed.
Lemma arr_sg1 m n (A : arr) (M : 'M[F]_(m, n)) : is_arr A M -> is_arr (sg A 1) (- M).
Proof. by case=> em en h; split=> //= i j; rewrite expr1 mulrN1 h mxE. Qed.
Lemma arr_hcat m n p (A B : arr) (M : 'M[F]_(m, n)) (N : 'M[F]_(m, p)) : is_arr A M -> is_arr B N -> is_arr (hcat2 A B) (row_mx M N).
Proof.
case=> em en h [em' en' h']; split=> /= [||i j]; rewrite ?em ?en ?en' //.
rewrite -[j]splitK; case: (split j) => k /=; first by rewrite ltn_ord h row_mxEl.
by rewrite ltnNge leq_addr /= addKn h' row_mxEr.
Qed.
Lemma arr_vcat m n p (A B : arr) (M : 'M[F]_(m, n)) (N : 'M[F]_(p, n)) : is_arr A M -> is_arr B N -> is_arr (vcat2 A B) (col_mx M N).
Proof.
case=> em en h [em' en' h']; split=> /= [||i j]; rewrite ?em ?en ?em' //.
rewrite -[i]splitK; case: (split i) => k /=; first by rewrite ltn_ord h col_mxEu.
by rewrite ltnNge leq_addr /= addKn h' col_mxEd.
Qed.
Lemma arr_zeros m n : is_arr (zeros 0 m n) (0 : 'M[F]_(m, n)).
Proof. by split=> // i j; rewrite mxE. Qed.
Lemma arr_Tr m n (A : arr) (M : 'M[F]_(m, n)) : is_arr A M -> is_arr (arr_T A) M^T.
Proof. by case=> em en h; split=> //= i j; rewrite mxE h. Qed.

Notation op1 c := (op (0 : F) c 1).
Notation op2 c := (op (0 : F) c 2).

(* one pass of the loop, from one operator and from two *)
Lemma pass c0 c1 c2 n l1 (c c' : seq arr) (B : arr) (D1 : 'M[F]_(c0, c1)) (D2 : 'M[F]_(c1, c2)) (L : 'M[F]_(n, l1)) :
  (0 < size c <= 2)%N -> (size c = 1%N -> c2 = 0%N) -> is_arr (op1 c) D1 -> is_arr (op2 c) D2 -> is_arr B L ->
  f_tensor c [:: B] = Some c' -> is_arr (op1 (take 2 c')) (P1 D1 L) /\ is_arr (op2 (take 2 c')) (P2 D1 D2 L).
Proof.
case: c => [|A [|A' []]] //= _ h2 a1 a2 aB.
  move/tensor1 ->; rewrite /=; move: D2 a2; rewrite (h2 erefl) => D2 a2; have [r1 k1 _] := a1; have [rB kB _] := aB.
  split; first by rewrite rB r1; apply: arr_hcat; [apply: arr_kI | apply/arr_sg0/arr_Ik].
  have -> : P2 D1 D2 L = col_mx (- (1%:M *t L)) (D1 *t 1%:M).
    apply/matrixP => i j; have ej : j = rshift (0 * n) (j : 'I_(c1 * l1)) by apply: val_inj.
    rewrite /P2 block_mxEv -[i]splitK; case: (split i) => x /=.
      by rewrite !col_mxEu {1}ej row_mxEr.
    by rewrite !col_mxEd {1}ej row_mxEr.
  by rewrite k1 kB; apply: arr_vcat; [apply/arr_sg1/arr_Ik | apply: arr_kI].
move/tensor2 ->; rewrite /=; have [r1 k1 _] := a1; have [r2 k2 _] := a2; have [rB kB _] := aB.
rewrite rB kB r1 k1 k2; split; first by apply: arr_hcat; [apply: arr_kI | apply/arr_sg0/arr_Ik].
rewrite /P2 block_mxEv; apply: arr_vcat; apply: arr_hcat; do ?exact: arr_kI; last exact: arr_zeros.
exact/arr_sg1/arr_Ik.
Qed.
End Arrays.

(* -------------------------------------------------------------------------------- the loop *)
Section Loop.
Variable F : fieldType.

(* what vanishes on the kernel is in the row space *)
Lemma img_of_ker K m n (A : 'M[F]_(m, n)) (e f : 'M[F]_(K, n)) :
  (forall y : 'rV_n, y *m A^T = 0 -> y = y *m f^T *m e) -> forall t : 'rV_n, t *m e^T = 0 -> (t <= A)%MS.
Proof.
move=> h t te; rewrite (orth_orth A); apply/sub_kermxP.
have [C ->] : exists C, kermx A^T = C *m e.
  have hk := mulmx_ker A^T; move: (kermx A^T) hk => N hk.
  exists (N *m f^T); apply/row_matrixP => i; rewrite 2!row_mul; apply: h.
  by rewrite -row_mul hk row0.
by rewrite trmx_mul mulmxA te mul0mx.
Qed.

Lemma link_of K n l1 (L : 'M[F]_(n, l1)) (a : 'rV[F]_n) (e f : 'M[F]_(K, l1)) :
  supp a = 1%N -> const_mx 1 *m L = 0 :> 'rV_l1 -> const_mx 1 *m a^T = 1%:M :> 'M_1 ->
  (forall y : 'rV_n, y *m L = 0 -> y = y *m a^T *m const_mx 1) ->
  e = const_mx 1 -> L *m e^T = 0 -> e *m f^T = 1%:M -> (forall y : 'rV_l1, y *m L^T = 0 -> y = y *m f^T *m e) ->
  (forall i, supp (row i f) = 1%N) -> ((0 < K)%N -> l1 = n) -> link L a e f.
Proof.
move=> h1 h2 h3 h4 h5 h6 h7 h8 h9 h10; split=> //; last exact: img_of_ker h8.
by apply: (@img_of_ker 1 _ _ L^T _ a) => y; rewrite trmxK; apply: h4.
Qed.

Lemma base K n l1 (L : 'M[F]_(n, l1)) (a : 'rV[F]_n) (e f : 'M[F]_(K, l1)) : link L a e f ->
  core n 1 L^T (0 : 'M[F]_(n, 0)) (const_mx 1 : 'rV[F]_n) a f.
Proof.
move=> hl; have ee := l_e hl.
have z0 m (v : 'M[F]_(m, 0)) : v = 0 by apply/matrixP => i [].
split; rewrite ?trmxK ?mul1n //.
- by rewrite -trmx_mul (l_b0 hl) trmx0.
- by apply: trmx_inj; rewrite trmx_mul trmxK (l_ba hl) trmx1.
- by move=> j; rewrite row_const supp_const.
- by move=> j; rewrite row_id (l_a hl).
- by move=> v _; apply: (l_img hl).
- move=> v /(l_ker hl) ev va; rewrite ev va mul0mx; exact: sub0mx.
- by move=> v _ nz; apply: supp_gt0; apply: contraNneq nz => ->; rewrite mul0mx.
- move=> v /(l_ker hl) ev nz; rewrite ev; have nt := mx1_nz nz; move: (v *m a^T) nt => t nt.
  rewrite /supp big_ord1; under eq_bigr => j _ do rewrite mx11_mul [const_mx _ _ _]mxE mulr1 nt.
  by rewrite sum_nat_const card_ord muln1.
- by rewrite -ee; apply: trmx_inj; rewrite trmx_mul trmxK (l_e0 hl) trmx0.
- by rewrite -ee; exact: l_ef hl.
- by rewrite -ee => w; apply: (l_eker hl).
- by rewrite -ee => w; apply: (l_eimg hl).
- exact: l_f hl.
- exact: l_n hl.
Qed.

Lemma sp_arr (A : Chain.arr F) m n (M : 'M[F]_(m, n)) : is_arr A M -> [/\ size (arr_mat A) = m, wf n (arr_mat A) & mx m n (arr_mat A) = M].
Proof.
case=> em en; subst m n => h; have [s w e] := arr_matP A; split=> //; rewrite e; apply/matrixP => i j; by rewrite mxE h.
Qed.

Lemma loop K n l1 (L : 'M[F]_(n, l1)) (a : 'rV[F]_n) (e f : 'M[F]_(K, l1)) (B : Chain.arr F) k : (K <= 1)%N -> link L a e f -> is_arr B L^T ->
  exists c, surface_chain B k = Some c /\ exists c0 c1 c2 (D1 : 'M[F]_(c0, c1)) (D2 : 'M[F]_(c1, c2)) (Z X : 'M[F]_(1 + k * K, c1)) (gz : 'M[F]_(K, c0)),
  [/\ is_arr (op 0 c 1) D1, is_arr (op 0 c 2) D2, core n (n ^ k) D1 D2 Z X gz, (k = 0 -> c2 = 0)%N /\ size c = minn 2 k.+1
    & c0 = (l1 * n ^ k)%N /\ c1 = (n ^ k.+1 + k * l1 ^ 2 * n ^ k.-1)%N].
Proof.
move=> K1 hl aB; elim: k => [|k [c [ec [c0 [c1 [c2 [D1 [D2 [Z [X [gz [h1 h2 h3 [h4 sc] [e0 e1]]]]]]]]]]]]].
  have [c [ec _ sc]] := surface_chainP B 0; exists c; split=> //; have eb : c = [:: B].
    by move: ec; rewrite /= /f_chain /= => -[<-].
  exists l1, n, 0%N, L^T, 0, (const_mx 1), a, f; rewrite eb; split=> //.
  - by case: aB => e1 e2 _; split=> //= i [].
  - exact: base hl.
  - by rewrite expn0 expn1 muln1 !mul0n addn0.
have [c' [ec' _ sc']] := surface_chainP B k.+1; exists c'; split=> //.
move: ec' => /=; rewrite ec; case et: (f_tensor _ _) => [ct|] //; rewrite /f_chain; case: ifP => // _ [ecc].
have aT : is_arr (arr_T B) L by have := arr_Tr aB; rewrite trmxK.
have [||p1 p2] := pass (c := c) _ _ h1 h2 aT et; first by rewrite sc; case: (k) => [|[]].
  by rewrite sc => s1; apply: h4; case: (k) s1 => [|[]].
rewrite ecc in p1 p2; have st := step K1 hl h3; move: (gz' a gz) (col_mx _ _) (col_mx _ _) st.
rewrite -addnA [(k * K + K)%N]addnC -mulSn => gz1 X1 Z1 st.
do 3!eexists; exists (P1 D1 L), (P2 D1 D2 L), Z1, X1, gz1; rewrite expnSr; split=> //.
split; first by rewrite e0 mulnA.
rewrite e1 e0 mulnDl -expnSr -addnA; congr addn.
have -> : (k * l1 ^ 2 * n ^ k.-1 * n = k * l1 ^ 2 * n ^ k)%N by case: (k) => [|k'] //; rewrite -mulnA -expnSr.
by rewrite mulSn mulnDl addnC; congr addn; rewrite mulnAC mulnn.
Qed.
End Loop.

(* --------------------------------------------------------------------------- the two families *)
Section Code.
Variable F : fieldType.
Notation mat := (seq (seq F)).

Lemma tnon_comm n (P W : mat) v : sp n P *m (sp n W)^T = 0 ->
  tnon n P W v <-> [/\ size v = n, rv n v *m (sp n W)^T = 0 & ~~ (rv n v <= sp n P)%MS].
Proof.
move=> pw; have cz : (sp n W :&: kermx (sp n P)^T :=: sp n W)%MS.
  by apply/capmx_idPl/sub_kermxP; apply: trmx_inj; rewrite trmx_mul trmxK trmx0.
split=> -[sv h1 h2]; split=> //.
  move/sub_kermxP: h1 => h1; have /submxP [D ->] : (sp n W <= sp n W :&: kermx (sp n P)^T)%MS by rewrite cz.
  by rewrite (trmx_mul D) mulmxA h1 mul0mx.
apply/sub_kermxP; have /submxP [D ->] : (sp n W :&: kermx (sp n P)^T <= sp n W)%MS by rewrite cz.
by rewrite (trmx_mul D) mulmxA h1 mul0mx.
Qed.

Lemma sp_sub (A : Chain.arr F) m n (M : 'M[F]_(m, n)) : is_arr A M ->
  [/\ forall v : 'rV_n, (v <= sp n (arr_mat A))%MS = (v <= M)%MS,
      forall v : 'rV_n, v *m (sp n (arr_mat A))^T = 0 <-> v *m M^T = 0 & \rank (sp n (arr_mat A)) = \rank M].
Proof. by move=> h; have [s w <-] := sp_arr h; rewrite /sp; case: _ / s. Qed.

Lemma core_rank K n T k c0 c1 c2 (D1 : 'M[F]_(c0, c1)) (D2 : 'M[F]_(c1, c2)) (Z X : 'M[F]_(k, c1)) (gz : 'M[F]_(K, c0)) :
  core n T D1 D2 Z X gz -> c1 = (k + (\rank D1 + \rank D2))%N.
Proof.
move=> hc; have e : (D1 + X :=: kermx D2)%MS.
  apply/eqmxP/andP; split.
    by rewrite addsmx_sub; apply/andP; split; apply/sub_kermxP; [exact: k_12 hc | exact: k_x hc].
  apply/rV_subP => v /sub_kermxP hv; rewrite -[v](subrK (v *m Z^T *m X)); apply: addmx_sub_adds; last exact: submxMl.
  apply: (k_co hc); first by rewrite mulmxBl hv -mulmxA (k_x hc) mulmx0 subrr.
  by rewrite mulmxBl -(mulmxA _ X) (k_xz hc) mulmx1 subrr.
have d : (D1 :&: X = 0)%MS.
  apply/eqP; rewrite -submx0; apply/rV_subP => v; rewrite sub_capmx => /andP [/submxP [c ->] /submxP [c' ec]].
  have : c' = 0.
    by rewrite -[c']mulmx1 -(k_xz hc) mulmxA -ec -mulmxA (k_z hc) mulmx0.
  by move=> e0; rewrite ec e0 mul0mx sub0mx.
have rX : \rank X = k.
  by apply/eqP; rewrite -/(row_free X); apply/row_freeP; exists Z^T; exact: k_xz hc.
have := mxrank_ker D2; rewrite -e (mxrank_disjoint_sum d) rX; have := rank_leq_row D2; clear; lia.
Qed.

Lemma core_dist K n T k c0 c1 c2 (D1 : 'M[F]_(c0, c1)) (D2 : 'M[F]_(c1, c2)) (Z X : 'M[F]_(k, c1)) (gz : 'M[F]_(K, c0)) (A1 A2 : Chain.arr F) :
  core n T D1 D2 Z X gz -> (0 < k)%N -> is_arr A1 D1 -> is_arr A2 D2 ->
  let A := css_mat c1 (arr_mat A1) (arr_mat (arr_T A2)) in
  [/\ is_tdist true c1 A T, is_tdist false c1 A n & counts c1 A k 0].
Proof.
move=> hc k0 a1 a2 A; have a2t := arr_Tr a2.
have [_ w1 _] := sp_arr a1; have [_ w2 _] := sp_arr a2t; have [s1 o1 r1] := sp_sub a1; have [s2 o2 r2] := sp_sub a2t.
have cm : sp c1 (arr_mat A1) *m (sp c1 (arr_mat (arr_T A2)))^T = 0.
  apply/row_matrixP => i; rewrite row_mul row0; apply/o2; rewrite trmxK.
  have : (row i (sp c1 (arr_mat A1)) <= D1)%MS by rewrite -s1 row_sub.
  by case/submxP => c ->; rewrite -mulmxA (k_12 hc) mulmx0.
have cm' : sp c1 (arr_mat (arr_T A2)) *m (sp c1 (arr_mat A1))^T = 0 by apply: trmx_inj; rewrite trmx_mul trmxK cm trmx0.
pose j0 : 'I_k := Ordinal k0.
split.
- rewrite /A is_tdistE //=; split.
    exists (lrv (row j0 X)).
      apply/tnon_comm => //; rewrite size_lrv rv_lrv; split=> //; first by apply/o2; rewrite trmxK -row_mul (k_x hc) row0.
      rewrite s1; apply/negP => /submxP [c ec].
      have : row j0 (X *m Z^T) = 0 by rewrite row_mul ec -mulmxA (k_z hc) mulmx0.
      by rewrite (k_xz hc) => /rowP /(_ j0); rewrite !mxE eqxx => /eqP; rewrite oner_eq0.
    by rewrite (hwt_supp (size_lrv _)) rv_lrv (k_xw hc).
  move=> v /(tnon_comm _ cm) [sv /o2 h1 h2]; rewrite trmxK in h1; rewrite (hwt_supp sv); apply: (k_cow hc h1).
  by apply: contra h2 => /eqP h2; rewrite s1; apply: (k_co hc).
- rewrite /A is_tdistE //=; split.
    exists (lrv (row j0 Z)).
      apply/tnon_comm => //; rewrite size_lrv rv_lrv; split=> //.
        by apply/o1; apply: trmx_inj; rewrite trmx_mul trmxK trmx0 tr_row -colM (k_z hc) colZ.
      rewrite s2; apply/negP => /submxP [c ec].
      have : row j0 (Z *m X^T) = 0 by rewrite row_mul ec -mulmxA -trmx_mul (k_x hc) trmx0 mulmx0.
      have -> : Z *m X^T = 1%:M by apply: trmx_inj; rewrite trmx_mul trmxK (k_xz hc) trmx1.
      by move/rowP => /(_ j0); rewrite !mxE eqxx => /eqP; rewrite oner_eq0.
    by rewrite (hwt_supp (size_lrv _)) rv_lrv (k_zw hc).
  move=> v /(tnon_comm _ cm') [sv /o1 h1 h2]; rewrite (hwt_supp sv); apply: (k_cyw hc h1).
  by apply: contra h2 => /eqP h2; rewrite s2; apply: (k_cy hc).
apply/counts_css => //; rewrite cm mxrank0; split=> //; rewrite addn0 r1 r2 mxrank_tr; exact: core_rank hc.
Qed.

Lemma const_row n (y : 'rV[F]_n) a : lrv y = nseq n a -> y = const_mx a.
Proof. by move=> h; apply/rowP => j; rewrite -[y]rv_lrv h !mxE nth_nseq ltn_ord. Qed.
Lemma row_const_word n (a : F) : rv n (nseq n a) = const_mx a.
Proof. by apply/rowP => j; rewrite !mxE nth_nseq ltn_ord. Qed.
Lemma const_a n (a : F) : (const_mx a : 'rV[F]_n.+1) = const_mx a *m (delta_mx 0 ord0 : 'rV[F]_n.+1)^T *m const_mx 1.
Proof. by rewrite trmx_delta -colE; apply/rowP => j; rewrite mx11_mul !mxE mulr1. Qed.
Lemma one_a n : const_mx 1 *m (delta_mx 0 ord0 : 'rV[F]_n.+1)^T = 1%:M :> 'M_1.
Proof. by rewrite trmx_delta -colE; apply/matrixP => i j; rewrite (ord1 i) (ord1 j) !mxE. Qed.

(* words of an array *)
Lemma arr_words (A : Chain.arr F) m n (M : 'M[F]_(m, n)) : is_arr A M ->
  (forall w, is_word n (arr_mat A) w <-> exists a, w = nseq n a) ->
  (const_mx 1 : 'rV_n) *m M^T = 0 /\ forall y : 'rV_n, y *m M^T = 0 -> exists a, y = const_mx a.
Proof.
move=> hA h; have [_ o _] := sp_sub hA; split.
  by apply/o; rewrite -row_const_word; apply/is_wordE; rewrite ?size_nseq //; apply/h; exists 1.
move=> y /o hy; have [|a ea] := proj1 (h (lrv y)); first by apply/is_wordE; rewrite ?size_lrv // rv_lrv.
by exists a; apply: const_row.
Qed.

Definition rep_mx m : 'M[F]_(m, m.+1) := \matrix_(i, j) at2 (rep_arr F m.+1) i j.
Definition ring_mx n : 'M[F]_n := \matrix_(i, j) at2 (ring_arr F n) i j.
Lemma rep_is m : is_arr (rep_arr F m.+1) (rep_mx m). Proof. by split=> // i j; rewrite mxE. Qed.
Lemma ring_is n : is_arr (ring_arr F n) (ring_mx n). Proof. by split=> // i j; rewrite mxE. Qed.

Lemma rep_link m : link (rep_mx m)^T (delta_mx 0 ord0) (const_mx 1 : 'M[F]_(0, m)) (0 : 'M[F]_(0, m)).
Proof.
have [h1 h2] := arr_words (rep_is m) (@rep_words _ m).
have z0 p (v : 'M[F]_(p, 0)) : v = 0 by apply/matrixP => i [].
apply: link_of => //; first exact: supp_delta.
- exact: one_a.
- by move=> y /h2 [a ->]; exact: const_a.
- by apply/matrixP => -[].
- rewrite trmxK => y; rewrite (z0 _ (y *m _)) mul0mx => hy; apply/eqP.
  have [_ hd _] := const_code (ltn0Sn m) (wf_mkmat m m.+1 _) (@rep_words F m).
  have [_ w _] := sp_arr (rep_is m); move/(has_dimE _ (wf_mkmat _ _ _)): hd; have [_ _ rk] := sp_sub (rep_is m).
  rewrite -[mkmat _ _ _]/(arr_mat (rep_arr F m.+1)) rk => hr.
  have fr : row_free (rep_mx m) by rewrite /row_free eqn_leq rank_leq_row /=; move: hr; clear; lia.
  by rewrite -(mulmx_free_eq0 _ fr) hy.
- by case.
Qed.

Lemma ring_link m : let n := m.+2 in
  link (ring_mx n)^T (delta_mx 0 ord0) (const_mx 1 : 'M[F]_(1, n)) (delta_mx 0 ord0 : 'M[F]_(1, n)).
Proof.
move=> n; have [h1 h2] := arr_words (ring_is n) (fun w => @ring_words F n w isT).
have tis : is_arr (arr_T (ring_arr F n)) (ring_mx n)^T by exact: arr_Tr (ring_is n).
have tw w : is_word n (arr_mat (arr_T (ring_arr F n))) w <-> exists a, w = nseq n a.
  have := @ring_words_t F n w isT; cbv zeta; rewrite size_mkmat => <-.
  have -> // : trl n (mkmat n n (fun i j => if j == (i.+1 %% n)%N then -1 else if j == i then 1 else 0 : F)) = arr_mat (arr_T (ring_arr F n)).
  have wt := wf_trl n (mkmat n n (fun i j => if j == (i.+1 %% n)%N then -1 else if j == i then 1 else 0 : F)); rewrite size_mkmat in wt.
  apply: (mat_ext (m := n) (n := n)); rewrite ?size_trl ?size_mkmat ?wf_mkmat // => i j li lj.
  by rewrite ent_trl ?size_mkmat // !ent_mkmat.
have [h3 h4] := arr_words tis tw; rewrite trmxK in h3 h4.
apply: link_of => //; first exact: supp_delta.
- exact: one_a.
- by move=> y /h2 [a ->]; exact: const_a.
- by rewrite -trmx_mul h3 trmx0.
- exact: one_a.
- by rewrite trmxK => y /h4 [a ->]; exact: const_a.
- by move=> i; rewrite row_id supp_delta.
Qed.

(* a ring of one site: its matrix is invertible and the chain is exact *)
Record exact c0 c1 c2 (D1 : 'M[F]_(c0, c1)) (D2 : 'M[F]_(c1, c2)) : Prop := Exact {
  x_12 : D1 *m D2 = 0; x_co : forall v : 'rV_c1, v *m D2 = 0 -> (v <= D1)%MS; x_cy : forall v : 'rV_c1, v *m D1^T = 0 -> (v <= D2^T)%MS;
  x_ker : forall w : 'rV_c0, w *m D1 = 0 -> w = 0; x_img : forall w : 'rV_c0, (w <= D1^T)%MS }.

Lemma exact_step c0 c1 c2 n (D1 : 'M[F]_(c0, c1)) (D2 : 'M[F]_(c1, c2)) (L : 'M[F]_n) : L \in unitmx -> exact D1 D2 ->
  exact (P1 D1 L) (P2 D1 D2 L).
Proof.
move=> uL hx; have n0 m p (M : 'M[F]_(m, p)) : m = 0%N -> M = 0 by move=> em; subst m; apply/matrixP => -[].
have kL (y : 'rV[F]_n) : y *m L = 0 -> y = 0 by move=> h; rewrite -[y](mulmxK uL) h mul0mx.
have uLt : L^T \in unitmx by rewrite unitmx_tr.
have kLt (y : 'rV[F]_n) : y *m L^T = 0 -> y = 0 by move=> h; rewrite -[y](mulmxK uLt) h mul0mx.
have fL (y : 'rV[F]_n) : (y <= L)%MS by rewrite submx_full // row_full_unit.
have fLt (y : 'rV[F]_n) : (y <= L^T)%MS by rewrite submx_full // row_full_unit.
split.
- exact/P12/(x_12 hx).
- move=> v /ker_P2 [h1 h2]; apply/sub_P1.
  apply: (@kun_co _ _ _ _ 0 0 _ _ 0 0 D1 D2 0 0 0 L 0 0 (gu v) (gw v)) => //; rewrite ?trmx0 ?mulmx0 ?mul0mx //.
  + by move=> u h _; apply: (x_co hx).
  + by move=> w /(x_ker hx) ->; rewrite !mul0mx.
  + by move=> y /kL ->.
- move=> v /ker_P1 h1; apply/sub_P2.
  apply: (@kun_cy _ _ _ _ 0 0 _ _ 0 0 D1 D2 0 0 0 L 0 0 (gu v) (gw v)) => //; rewrite ?trmx0 ?mulmx0 ?mul0mx //.
  + by apply/matrixP => -[].
  + by move=> u h _; apply: (x_cy hx).
  + by move=> w _; apply: (x_img hx).
  + by move=> y /kLt ->.
- move=> w; rewrite /P1 mul_mx_row => h.
  have : row_mx (w *m (D1 *t 1%:M)) (w *m (1%:M *t L)) = row_mx 0 0 by rewrite h row_mx0.
  case/eq_row_mx => _ /(congr1 (@unvec _ _ _)); rewrite unvec_mul unvec0 trmx1 mul1mx => h2.
  by apply: unvec_inj; rewrite unvec0 -[unvec w](mulmxK uL) h2 mul0mx.
move=> w; apply: (@sub_Q1t _ _ _ _ _ L D1 w 0 (unvec w *m invmx L^T)).
by rewrite mulmx0 add0r -mulmxA mulVmx ?mulmx1.
Qed.

Lemma exact_loop n (L : 'M[F]_n) (B : Chain.arr F) k : L \in unitmx -> is_arr B L^T ->
  exists c, surface_chain B k = Some c /\ exists c0 c1 c2 (D1 : 'M[F]_(c0, c1)) (D2 : 'M[F]_(c1, c2)),
  [/\ is_arr (op 0 c 1) D1, is_arr (op 0 c 2) D2, exact D1 D2, (k = 0 -> c2 = 0)%N & size c = minn 2 k.+1].
Proof.
move=> uL aB; elim: k => [|k [c [ec [c0 [c1 [c2 [D1 [D2 [h1 h2 h3 h4 sc]]]]]]]]].
  have [c [ec _ sc]] := surface_chainP B 0; exists c; split=> //; have eb : c = [:: B].
    by move: ec; rewrite /= /f_chain /= => -[<-].
  exists n, n, 0%N, L^T, 0; rewrite eb; split=> //; first by case: aB => e1 e2 _; split=> //= i [].
  have uLt : L^T \in unitmx by rewrite unitmx_tr.
  split; rewrite ?trmxK ?mulmx0 //.
  - by move=> v _; rewrite submx_full // row_full_unit.
  - by move=> v h; rewrite -[v](mulmxK uL) h mul0mx sub0mx.
  - by move=> v h; rewrite -[v](mulmxK uLt) h mul0mx.
  - by move=> v; rewrite submx_full // row_full_unit.
have [c' [ec' _ sc']] := surface_chainP B k.+1; exists c'; split=> //.
move: ec' => /=; rewrite ec; case et: (f_tensor _ _) => [ct|] //; rewrite /f_chain; case: ifP => // _ [ecc].
have aT : is_arr (arr_T B) L by have := arr_Tr aB; rewrite trmxK.
have [||p1 p2] := pass (c := c) _ _ h1 h2 aT et; first by rewrite sc; case: (k) => [|[]].
  by rewrite sc => s1; apply: h4; case: (k) s1 => [|[]].
by rewrite ecc in p1 p2; do 3!eexists; exists (P1 D1 L), (P2 D1 D2 L); split=> //; exact: exact_step.
Qed.

Lemma exact_counts c0 c1 c2 (D1 : 'M[F]_(c0, c1)) (D2 : 'M[F]_(c1, c2)) (A1 A2 : Chain.arr F) :
  exact D1 D2 -> is_arr A1 D1 -> is_arr A2 D2 -> counts c1 (css_mat c1 (arr_mat A1) (arr_mat (arr_T A2))) 0 0.
Proof.
move=> hx a1 a2; have a2t := arr_Tr a2.
have [_ w1 _] := sp_arr a1; have [_ w2 _] := sp_arr a2t; have [s1 o1 r1] := sp_sub a1; have [s2 o2 r2] := sp_sub a2t.
have cm : sp c1 (arr_mat A1) *m (sp c1 (arr_mat (arr_T A2)))^T = 0.
  apply/row_matrixP => i; rewrite row_mul row0; apply/o2; rewrite trmxK.
  have : (row i (sp c1 (arr_mat A1)) <= D1)%MS by rewrite -s1 row_sub.
  by case/submxP => c ->; rewrite -mulmxA (x_12 hx) mulmx0.
apply/counts_css => //; rewrite cm mxrank0; split=> //; rewrite addn0 r1 r2 mxrank_tr add0n.
have e : (D1 :=: kermx D2)%MS.
  apply/eqmxP/andP; split; first by apply/sub_kermxP; exact: x_12 hx.
  by apply/rV_subP => v /sub_kermxP; apply: (x_co hx).
have := mxrank_ker D2; rewrite -e; have := rank_leq_row D2; clear; lia.
Qed.
End Code.
