(* Stabilizer CSS codes from explicit logical operators: counting logical qudits and bounding distances. *)
From mathcomp Require Import all_ssreflect all_algebra zify.
From Verif Require Import LinAlg RowReduce Classical ClassicalProofs ClassicalProofs2 Symplectic Quantum QuantumProofs QuantumLogs.
From Verif Require Import Css CssLogs CssProofs CssGauge QuantumDist CssDist.
Set Implicit Arguments.
Unset Strict Implicit.
Unset Printing Implicit Defensive.
Import GRing.Theory.
Local Open Scope ring_scope.

Section Cert.
Variable F : fieldType.
Notation vec := (seq F).
Notation mat := (seq (seq F)).

(* a nontrivial operator of one type commutes with the checks of the other type and is no product of checks of its type *)
Lemma tnon_comm n (P W : mat) (v : vec) : sp n P *m (sp n W)^T = 0 -> size v = n ->
  tnon n P W v <-> rv n v *m (sp n W)^T = 0 /\ ~~ (rv n v <= sp n P)%MS.
Proof.
move=> e sv; have e' : sp n W *m (sp n P)^T = 0 by apply: trmx_inj; rewrite trmx_mul trmxK e trmx0.
have h : (sp n W :&: kermx (sp n P)^T :=: sp n W)%MS.
  by apply/eqmxP; rewrite capmxSl sub_capmx submx_refl /=; apply/sub_kermxP.
have hk : (rv n v <= kermx (sp n W :&: kermx (sp n P)^T)%MS^T)%MS = (rv n v <= kermx (sp n W)^T)%MS.
  apply/idP/idP => /sub_kermxP h1; apply/sub_kermxP.
    have /submxP [D eD] : (sp n W <= sp n W :&: kermx (sp n P)^T)%MS by rewrite h.
    by rewrite eD trmx_mul mulmxA h1 mul0mx.
  have /submxP [D ->] : (sp n W :&: kermx (sp n P)^T <= sp n W)%MS by rewrite h.
  by rewrite trmx_mul mulmxA h1 mul0mx.
rewrite /tnon hk; split=> [[_ /sub_kermxP h1 h2] | [h1 h2]] //.
by split=> //; apply/sub_kermxP.
Qed.

(* explicit operators l and m (k of each) that are dual to each other and commute with the checks; if a vector that commutes
   with W and m belongs to the span of P, the code has k logical qudits *)
Lemma cert_counts n k (P W : mat) (l m : 'M[F]_(k, n)) : wf n P -> wf n W -> sp n P *m (sp n W)^T = 0 ->
  l *m (sp n W)^T = 0 -> m *m (sp n P)^T = 0 -> l *m m^T \in unitmx ->
  (forall v : 'rV[F]_n, v *m (sp n W)^T = 0 -> v *m m^T = 0 -> (v <= sp n P)%MS) ->
  counts n (css_mat n P W) k 0.
Proof.
move=> wP wW e lW mP lm h; apply/(counts_css _ _ wP wW); rewrite e mxrank0 addn0; split=> //.
have Pm : sp n P *m m^T = 0 by apply: trmx_inj; rewrite trmx_mul trmxK mP trmx0.
have eq : (kermx (sp n W)^T :=: sp n P + l)%MS.
  apply/eqmxP; apply/andP; split; last by rewrite addsmx_sub; apply/andP; split; apply/sub_kermxP.
  apply/row_subP => i; set v := row i _; have vW : v *m (sp n W)^T = 0 by rewrite -row_mul mulmx_ker row0.
  rewrite -[v](subrK (v *m m^T *m invmx (l *m m^T) *m l)); apply: addmx_sub_adds; last exact: submxMl.
  apply: h; first by rewrite mulmxBl vW -mulmxA lW mulmx0 subr0.
  by rewrite mulmxBl -[_ *m l *m _]mulmxA mulmxKV // subrr.
have free (u : 'rV[F]_k) : (u *m l <= sp n P)%MS -> u = 0.
  case/submxP => D eD; have : u *m l *m m^T = 0 by rewrite eD -mulmxA Pm mulmx0.
  by rewrite -mulmxA => h0; rewrite -[u](mulmxK lm) h0 mul0mx.
have c0 : \rank (sp n P :&: l)%MS = 0%N.
  apply/eqP; rewrite mxrank_eq0; apply/eqP/row_matrixP => i; rewrite row0.
  have := row_sub i (sp n P :&: l)%MS; rewrite sub_capmx => /andP[h1 /submxP [a ea]].
  by rewrite ea in h1 *; rewrite (free _ h1) mul0mx.
have fr : \rank l = k.
  apply/eqP; rewrite -/(row_free l) -kermx_eq0; apply/eqP/row_matrixP => i; rewrite row0; apply: free.
  by rewrite -row_mul mulmx_ker row0 sub0mx.
have := mxrank_sum_cap (sp n P) l; rewrite c0 addn0 fr -eq mxrank_ker mxrank_tr.
have := rank_leq_col (sp n W); clear; lia.
Qed.

(* a vector with a nonzero entry of every kind has at least as many nonzero entries as there are kinds *)
Lemma hits n (v : vec) (f : nat -> nat) c : size v = n ->
  (forall j, (j < c)%N -> exists q, [/\ (q < n)%N, nth 0 v q != 0 & f q = j]) -> (c <= hwt v)%N.
Proof.
move=> sv h; have e : hwt v = size [seq f q | q <- iota 0 n & nth 0 v q != 0].
  by rewrite size_map size_filter /hwt -[in LHS](mkseq_nth 0 v) /mkseq count_map sv.
rewrite e -[c in (c <= _)%N](size_iota 0); apply: uniq_leq_size; first exact: iota_uniq.
move=> j; rewrite mem_iota /= add0n => /h [q [lq nz <-]].
by apply: map_f; rewrite mem_filter nz mem_iota add0n.
Qed.

Lemma dotE n (u v : vec) : (rv n u *m (rv n v)^T) 0 0 = \sum_(q < n) nth 0 u q * nth 0 v q.
Proof. by rewrite mxE; apply: eq_bigr => q _; rewrite !mxE. Qed.

Lemma rv_eq0 (M : 'rV[F]_1) : M 0 0 = 0 -> M = 0.
Proof. by move=> h; apply/matrixP => i j; rewrite !ord1 h mxE. Qed.

(* products of check matrices, row by row *)
Lemma comm_rows n (P W : mat) : wf n P -> wf n W -> (forall p w, p \in P -> w \in W -> \sum_(q < n) nth 0 p q * nth 0 w q = 0) ->
  sp n P *m (sp n W)^T = 0.
Proof.
move=> wP wW h; apply/matrixP => i j; rewrite !mxE -[RHS](h (nth [::] P i) (nth [::] W j)); try exact: mem_nth.
by apply: eq_bigr => q _; rewrite !mxE.
Qed.
Lemma comm_row n (v : 'rV[F]_n) (W : mat) : (forall w, w \in W -> \sum_(q < n) v 0 q * nth 0 w q = 0) -> v *m (sp n W)^T = 0.
Proof.
move=> h; apply/matrixP => i j; rewrite !mxE -[RHS](h (nth [::] W j)); last exact: mem_nth.
by apply: eq_bigr => q _; rewrite !mxE ord1.
Qed.
Lemma row_comm n (v : 'rV[F]_n) (W : mat) w : v *m (sp n W)^T = 0 -> w \in W -> \sum_(q < n) v 0 q * nth 0 w q = 0.
Proof.
move=> e /(nthP [::]) [j lj <-]; move/matrixP: e => /(_ 0 (Ordinal lj)); rewrite !mxE => e; rewrite -[RHS]e.
by apply: eq_bigr => q _; rewrite !mxE.
Qed.
End Cert.
