(* np.kron of list arrays is mathcomp's tensor product of matrices; vectors of length m * n as m x n arrays (reshape). *)
From mathcomp Require Import all_ssreflect all_algebra.
From mathcomp Require Import mxtens.
From Verif Require Import LinAlg.
Set Implicit Arguments.
Unset Strict Implicit.
Unset Printing Implicit Defensive.
Import GRing.Theory.
Local Open Scope ring_scope.

Section Kron.
Variable R : ringType.

Lemma mx_kron m n p q (A B : mat R) : size A = m -> size B = p -> wf n A -> wf q B ->
  mx (m * p) (n * q) (kron A B) = mx m n A *t mx p q B.
Proof.
move=> sA sB wA wB; apply/matrixP => i j; rewrite !mxE (ent_kron wA wB) ?sA ?sB //.
Qed.

Lemma rv_vkron n q (u v : vec R) : size u = n -> size v = q -> rv (n * q) (vkron u v) = rv n u *t rv q v.
Proof.
move=> su sv; apply/rowP => j; rewrite !mxE (nth_vkron su sv) //.
Qed.

(* w.reshape(m, n) *)
Definition unvec m n (w : 'rV[R]_(m * n)) : 'M[R]_(m, n) := \matrix_(i, j) w 0 (mxtens_index (i, j)).
Definition tovec m n (W : 'M[R]_(m, n)) : 'rV[R]_(m * n) := \row_k W (mxtens_unindex k).1 (mxtens_unindex k).2.

Lemma unvecK m n : cancel (@unvec m n) (@tovec m n).
Proof. by move=> w; apply/rowP => k; rewrite !mxE -surjective_pairing mxtens_unindexK. Qed.
Lemma tovecK m n : cancel (@tovec m n) (@unvec m n).
Proof. by move=> W; apply/matrixP => i j; rewrite !mxE mxtens_indexK. Qed.

Lemma unvec_inj m n : injective (@unvec m n).
Proof. exact: can_inj (@unvecK m n). Qed.

Lemma unvec0 m n : unvec (0 : 'rV[R]_(m * n)) = 0.
Proof. by apply/matrixP => i j; rewrite !mxE. Qed.

Lemma unvec_eq0 m n (w : 'rV[R]_(m * n)) : (unvec w == 0) = (w == 0).
Proof. by rewrite -(inj_eq (@unvec_inj m n)) unvec0. Qed.

Lemma big_tens m n (f : 'I_(m * n) -> R) :
  \sum_(k < m * n) f k = \sum_(i < m) \sum_(j < n) f (mxtens_index (i, j)).
Proof.
rewrite pair_big /=; apply: (reindex (fun p : 'I_m * 'I_n => mxtens_index (p.1, p.2))).
exists (@mxtens_unindex m n) => [[i j] _ | k _]; first exact: mxtens_indexK.
by rewrite -surjective_pairing mxtens_unindexK.
Qed.

End Kron.

Section KronCom.
Variable R : comRingType.

Lemma unvec_mul m n p q (c : 'rV[R]_(m * p)) (A : 'M[R]_(m, n)) (B : 'M[R]_(p, q)) :
  unvec (c *m (A *t B)) = A^T *m unvec c *m B.
Proof.
apply/matrixP => i j; rewrite !mxE big_tens; apply/esym.
under eq_bigr => t _ do rewrite mxE mulr_suml.
rewrite exchange_big /=; apply: eq_bigr => s _; apply: eq_bigr => t _.
by rewrite tensmxE !mxE -mulrA mulrCA.
Qed.

End KronCom.
