(* Nontrivial logical operators and distances of stabilizer and subsystem codes: specification and linear algebra. *)
From mathcomp Require Import all_ssreflect all_algebra zify.
From Verif Require Import LinAlg RowReduce Classical ClassicalProofs ClassicalProofs2 Symplectic Quantum QuantumProofs QuantumLogs.
From Verif Require Import Css CssLogs CssProofs CssGauge.
Set Implicit Arguments.
Unset Strict Implicit.
Unset Printing Implicit Defensive.
Import GRing.Theory.
Local Open Scope ring_scope.

(* ====================================================================== specification *)
Section Spec.
Variable F : fieldType.
Notation vec := (seq F).
Notation mat := (seq (seq F)).

(* the operator v = [x|z] is a nontrivial (dressed) logical operator of the code whose gauge group is generated by A: it
   commutes with the stabilizers (the centre of the gauge group), and it is not a gauge operator *)
Definition nontrivial (n : nat) (A : mat) (v : vec) : Prop :=
  [/\ size v = (n + n)%N, forall s, central n A s -> symp n s v = 0 & ~ span (n + n) A v].
(* number of qudits on which [x|z] acts nontrivially *)
Definition qwt (n : nat) (v : vec) : nat := count (fun j => (nth 0 v j != 0) || (nth 0 v (n + j) != 0)) (iota 0 n).
(* d is the smallest weight of a nontrivial logical operator *)
Definition is_qdist (n : nat) (A : mat) (d : nat) : Prop :=
  (exists2 v, nontrivial n A v & qwt n v = d) /\ (forall v, nontrivial n A v -> (d <= qwt n v)%N).
(* the operator of X type (x = true) or of Z type (x = false) with the given support *)
Definition emb (x : bool) (n : nat) (v : vec) : vec := if x then v ++ nseq n 0 else nseq n 0 ++ v.
(* d is the smallest weight of a nontrivial logical operator of one type *)
Definition is_tdist (x : bool) (n : nat) (A : mat) (d : nat) : Prop :=
  (exists v, [/\ size v = n, nontrivial n A (emb x n v) & hwt v = d]) /\
  (forall v, size v = n -> nontrivial n A (emb x n v) -> (d <= hwt v)%N).
End Spec.

(* =============================================================================== proofs *)
Section General.
Variable F : fieldType.
Notation vec := (seq F).
Notation mat := (seq (seq F)).
Notation Z n A := (sp (n + n) A :&: scomp (sp (n + n) A))%MS.

Lemma nontrivialE n (A : mat) (v : vec) : wf (n + n) A -> nontrivial n A v <->
  [/\ size v = (n + n)%N, (rv (n + n) v <= scomp (Z n A))%MS & ~~ (rv (n + n) v <= sp (n + n) A)%MS].
Proof.
move=> wA; split=> [[sv h1 h2]|[sv h1 h2]].
  split=> //; last by apply/negP => h; apply: h2; apply/spanP.
  apply/scompP; apply/row_matrixP => i; rewrite row0 !row_mul.
  set s := row i _; have hs : central n A (lrv s).
    by apply/centralP; rewrite // size_lrv rv_lrv row_sub.
  by have := h1 _ hs; move/sympE => /(_ (size_lrv _) sv); rewrite rv_lrv.
split=> //; last by move/spanP => [_ h]; rewrite h in h2.
move=> s /(centralP _ wA) [ss hs]; apply/sympE => //; move/submxP: hs => [D ->].
by move/scompP: h1 => h1; rewrite -!mulmxA [_ *m (symJ F n *m _)]mulmxA h1 mulmx0.
Qed.

Section Basis.
Variables (n k g : nat) (A L : mat).
Hypotheses (wA : wf (n + n) A) (lb : logical_basis n k A L) (cA : counts n A k g).

Let wL : wf (n + n) L. Proof. by have [[_ wL _] _] := lb. Qed.
Let sL : size L = (k + k)%N. Proof. by have [[sL _ _] _] := lb. Qed.
Let AL : sp (n + n) A *m symJ F n *m (sp (n + n) L)^T = 0.
Proof. by apply/commP => //; have [_ h] := lb. Qed.

Lemma logs_mod (a : 'rV[F]_(size L)) : (a *m sp (n + n) L <= sp (n + n) A)%MS -> a = 0.
Proof.
case/submxP => D e; have gr := pairs_gram (proj1 lb).
have fr : row_free (sp (n + n) L *m symJ F n *m (sp (n + n) L)^T) by rewrite /row_free gr sL.
apply: (row_free_inj fr); rewrite /= mul0mx !mulmxA e -!mulmxA [sp _ A *m _]mulmxA.
by rewrite AL mulmx0.
Qed.

Lemma logs_free : row_free (sp (n + n) L).
Proof.
rewrite -kermx_eq0; apply/eqP/row_matrixP => i; rewrite row0; apply: logs_mod.
by rewrite -row_mul mulmx_ker row0 sub0mx.
Qed.

Lemma scompZ : (scomp (Z n A) :=: sp (n + n) A + sp (n + n) L)%MS.
Proof.
apply: eqmx_sym; apply/eqmxP; have sub : (sp (n + n) A + sp (n + n) L <= scomp (Z n A))%MS.
  rewrite addsmx_sub; apply/andP; split.
    by apply/scompP'; apply/scompP; rewrite capmxSr.
  have : (sp (n + n) L <= scomp (sp (n + n) A))%MS by apply/scompP.
  by move/submx_trans; apply; apply: scomp_anti; apply: capmxSl.
rewrite sub /= -(geq_leqif (mxrank_leqif_sup sub)) rank_scomp.
have c0 : \rank (sp (n + n) A :&: sp (n + n) L)%MS = 0%N.
  apply/eqP; rewrite mxrank_eq0; apply/eqP/row_matrixP => i; rewrite row0.
  have := row_sub i (sp (n + n) A :&: sp (n + n) L)%MS; rewrite sub_capmx => /andP[h1 /submxP [a ea]].
  by rewrite ea in h1 *; rewrite (logs_mod h1) mul0mx.
have := mxrank_sum_cap (sp (n + n) A) (sp (n + n) L); rewrite c0 addn0 => ->.
have /eqP -> := logs_free; rewrite sL.
have [] := proj1 (countsP _ _ wA) cA; clear; lia.
Qed.

(* the nontrivial logical operators are the products of a gauge operator and a nontrivial product of logical operators *)
Lemma nontrivial_comb (v : vec) : size v = (n + n)%N -> nontrivial n A v <->
  exists a : 'rV[F]_(size L), a <> 0 /\ (rv (n + n) v - a *m sp (n + n) L <= sp (n + n) A)%MS.
Proof.
move=> sv; rewrite nontrivialE // scompZ; split=> [[_ /sub_addsmxP [[b a] /= e] h]|[a [nz h]]].
  exists a; rewrite e addrK submxMl; split=> // a0.
  by move/negP: h; apply; rewrite e a0 mul0mx addr0 submxMl.
split=> //.
  rewrite -[rv _ v](subrK (a *m sp (n + n) L)); apply: addmx_sub_adds => //; exact: submxMl.
apply/negP => h'; apply: nz; apply: logs_mod.
by rewrite -[_ *m _](subKr (rv (n + n) v)) addmx_sub // eqmx_opp.
Qed.
End Basis.
End General.

Section Vectors.
Variable F : fieldType.
Notation vec := (seq F).
Notation mat := (seq (seq F)).

Lemma vany_rv (m : nat) (a : vec) : size a = m -> vany a <-> rv m a <> 0.
Proof.
move=> sa; split=> [/hasP [x xa nx] /rowP e|h].
  move/(nthP 0): xa => [i li ei]; rewrite sa in li; have := e (Ordinal li); rewrite !mxE /= ei => x0.
  by rewrite x0 eqxx in nx.
apply: contraT => /hasPn h0; case: h; apply/rowP => i; rewrite !mxE; apply/eqP; apply: contraT => nz.
by have := h0 (nth 0 a i); rewrite mem_nth ?sa // nz => /(_ isT).
Qed.

(* affine form of "v minus a combination of the rows of L is in the row space of S" *)
Lemma comb_split n (L S : mat) (v : vec) : size v = n ->
  (exists a : 'rV[F]_(size L), a <> 0 /\ (rv n v - a *m sp n L <= sp n S)%MS) <->
  (exists a t : vec, [/\ size a = size L, size t = size S, vany a & v = vadd (vmulm n a L) (vmulm n t S)]).
Proof.
move=> sv; split=> [[a [nz /submxP [t e]]]|[a [t [sa st va ev]]]].
  exists (lrv a), (lrv t); rewrite !size_lrv; split=> //; first by apply/(vany_rv (size_lrv _)); rewrite rv_lrv.
  apply: (@rv_inj _ n); rewrite ?size_vadd ?size_vmulm // rv_add ?size_vmulm // !rv_vmulm ?size_lrv // !rv_lrv.
  by rewrite -e addrC subrK.
exists (rv (size L) a); split; first by apply/(vany_rv sa).
by rewrite ev rv_add ?size_vmulm // !rv_vmulm // addrAC subrr add0r submxMl.
Qed.
End Vectors.

Section Typed.
Variable F : fieldType.
Notation vec := (seq F).
Notation mat := (seq (seq F)).

Lemma row_scomp_block m1 m2 n (X : 'M[F]_(m1, n)) (W : 'M[F]_(m2, n)) (a b : 'rV[F]_n) :
  (row_mx a b <= scomp (block_mx X 0 0 W))%MS = (a <= kermx W^T)%MS && (b <= kermx X^T)%MS.
Proof.
rewrite (sameP (@scompP' _ _ _ _ _ _) eqP) symJ_mx tr_block_mx !trmx0 mul_row_block ?(mulmx0, mul0mx, addr0, add0r).
rewrite !(sameP sub_kermxP eqP) andbC; apply/eqP/andP => [/eqP | [/eqP e1 /eqP e2]].
  by rewrite -[X in _ == X]row_mx0 => /eqP /eq_row_mx [/eqP + ->]; rewrite mulNmx oppr_eq0.
by rewrite mulNmx e1 oppr0 e2 row_mx0.
Qed.

(* the X-type (or Z-type) part: P are the checks of the same type, W those of the other type *)
Definition tnon (n : nat) (P W : mat) (v : vec) : Prop :=
  [/\ size v = n, (rv n v <= kermx (sp n W :&: kermx (sp n P)^T)%MS^T)%MS & ~~ (rv n v <= sp n P)%MS].

Lemma size_emb x n (v : vec) : size (emb x n v) = (n + size v)%N.
Proof. by rewrite /emb; case: x; rewrite size_cat size_nseq // addnC. Qed.

Lemma rv_emb x n (v : vec) : size v = n -> rv (n + n) (emb x n v) = if x then row_mx (rv n v) 0 else row_mx 0 (rv n v).
Proof.
move=> sv; rewrite /emb; case: x; rewrite rv_cat ?size_nseq //; congr row_mx; apply/rowP => i; rewrite !mxE nth_nseq if_same //.
Qed.

Lemma nontrivial_emb x n (X W : mat) (v : vec) : wf n X -> wf n W -> size v = n ->
  nontrivial n (css_mat n X W) (emb x n v) <-> if x then tnon n X W v else tnon n W X v.
Proof.
move=> wX wW sv; rewrite (nontrivialE _ (wf_css wX wW)) (scomp_eqmx (css_center wX wW)) (sp_css wX wW) size_emb sv.
rewrite rv_emb // /tnon; case: x; rewrite row_scomp_block row_block !sub0mx ?andbT ?andTb.
  by split=> -[_ h1 h2].
by split=> -[_ h1 h2].
Qed.

Section Side.
Variables (n k : nat) (P W l m : mat).
Hypotheses (sl : size l = k) (lW : mx k n l *m (sp n W)^T = 0) (mP : mx k n m *m (sp n P)^T = 0).
Hypothesis lm : mx k n l *m (mx k n m)^T = 1%:M.
Hypothesis cnt : (n + \rank (sp n P *m (sp n W)^T) = k + (\rank (sp n P) + \rank (sp n W)))%N.

Lemma side_mod (a : 'rV[F]_k) : (a *m mx k n l <= sp n P)%MS -> a = 0.
Proof.
case/submxP => D e; rewrite -[a]mulmx1 -lm mulmxA e -mulmxA.
have -> : sp n P *m (mx k n m)^T = 0 by apply: trmx_inj; rewrite trmx_mul trmxK mP trmx0.
by rewrite mulmx0.
Qed.

Lemma side_ker : (kermx (sp n W :&: kermx (sp n P)^T)%MS^T :=: sp n P + mx k n l)%MS.
Proof.
set Wc := (sp n W :&: _)%MS.
apply: eqmx_sym; apply/eqmxP; have sub : (sp n P + mx k n l <= kermx Wc^T)%MS.
  rewrite addsmx_sub; apply/andP; split; apply/sub_kermxP; apply: trmx_inj; rewrite trmx_mul trmxK trmx0.
    by apply/sub_kermxP; rewrite capmxSr.
  have /submxP [D ->] : (Wc <= sp n W)%MS by rewrite capmxSl.
  by rewrite -mulmxA -[sp n W *m _]trmxK trmx_mul trmxK lW trmx0 mulmx0.
rewrite sub /= -(geq_leqif (mxrank_leqif_sup sub)) mxrank_ker mxrank_tr.
have c0 : \rank (sp n P :&: mx k n l)%MS = 0%N.
  apply/eqP; rewrite mxrank_eq0; apply/eqP/row_matrixP => i; rewrite row0.
  have := row_sub i (sp n P :&: mx k n l)%MS; rewrite sub_capmx => /andP[h1 /submxP [a ea]].
  by rewrite ea in h1 *; rewrite (side_mod h1) mul0mx.
have := mxrank_sum_cap (sp n P) (mx k n l); rewrite c0 addn0 => ->.
have fr : row_free (mx k n l).
  rewrite -kermx_eq0; apply/eqP/row_matrixP => i; rewrite row0; apply: side_mod.
  by rewrite -row_mul mulmx_ker row0 sub0mx.
have /eqP -> := fr.
have := rank_cap_ker (sp n W) (sp n P); have : \rank (sp n P *m (sp n W)^T) = \rank (sp n W *m (sp n P)^T).
  by rewrite -mxrank_tr trmx_mul trmxK.
rewrite -/Wc; move: cnt; clear; lia.
Qed.

Lemma side_comb (S : mat) (v : vec) : (sp n S :=: sp n P)%MS -> size v = n ->
  tnon n P W v <-> exists a t : vec, [/\ size a = size l, size t = size S, vany a & v = vadd (vmulm n a l) (vmulm n t S)].
Proof.
move=> eS sv; rewrite -comb_split // /tnon side_ker -sl; split=> [[_ /sub_addsmxP [[b a] /= e] h]|[a [nz h]]].
  exists a; rewrite e addrK eS submxMl; split=> // a0.
  by move/negP: h; apply; rewrite e a0 mul0mx addr0 submxMl.
rewrite eS in h; split=> //.
  rewrite -[rv _ v](subrK (a *m sp n l)); apply: addmx_sub_adds => //; exact: submxMl.
apply/negP => h'; apply: nz; move: a h; rewrite /sp sl => a h; apply: side_mod.
by rewrite -[_ *m _](subKr (rv n v)) addmx_sub // eqmx_opp.
Qed.
End Side.

(* logical operators of a CSS code, as matrices *)
Lemma basis_css_dual n k (X W lx lz : mat) : wf n X -> wf n W -> wf n lx -> wf n lz -> size lx = k ->
  logical_basis n k (css_mat n X W) (bdiag n n lx lz) -> css_dual n k X W lx lz.
Proof.
move=> wX wW wx wz ex [dp hc]; have ez : size lz = k.
  by have [+ _ _] := dp; rewrite size_bdiag ex => /eqP; rewrite eqn_add2l => /eqP.
have /scompP : sp (n + n) (css_mat n X W) *m symJ F n *m (sp (n + n) (bdiag n n lx lz))^T = 0.
  by apply/commP => //; [apply: wf_css | apply: wf_bdiag].
rewrite (scomp_eqmx (sp_css wX wW)) (sp_css wx wz) => /scompP; rewrite gram_block.
move/eqP; rewrite -[X in _ == X]block_mx0 => /eqP /eq_block_mx [_ e1 e2 _].
split=> //; rewrite -?[in mx _ n lx]ex -?[in mx _ n lz]ez.
- by apply: trmx_inj; rewrite trmx_mul trmxK trmx0; apply/eqP; rewrite -oppr_eq0; apply/eqP; move: e2; rewrite /sp ex.
- by apply: trmx_inj; rewrite trmx_mul trmxK trmx0; move: e1; rewrite /sp ez.
have w1 : wf (n + n) [seq r ++ nseq n 0 | r <- lx].
  by apply/wfP => r /mapP [q qx ->]; rewrite size_cat size_nseq; move/wfP: wx => ->.
have w2 : wf (n + n) [seq nseq n 0 ++ r | r <- lz].
  by apply/wfP => r /mapP [q qx ->]; rewrite size_cat size_nseq; move/wfP: wz => ->.
have := mx_bdiag ex ez wx wz; rewrite /bdiag (mx_cat _ _ (m1 := k)) ?size_map // /block_mx => /eq_col_mx [mX mZ].
have s1 : size [seq r ++ nseq n 0 | r <- lx] = k by rewrite size_map.
have s2 : size [seq nseq n (0 : F) ++ r | r <- lz] = k by rewrite size_map.
have [_ _] := proj1 (dual_pairsP s1 s2 w1 w2) dp.
by rewrite mX mZ symJ_split trmx0 mul0mx subr0.
Qed.

(* both sides of a CSS code *)
Lemma css_comb x n k g (X W lx lz : mat) (S : mat) (v : vec) : wf n X -> wf n W -> css_dual n k X W lx lz ->
  counts n (css_mat n X W) k g -> (sp n S :=: sp n (if x then X else W))%MS -> size v = n ->
  nontrivial n (css_mat n X W) (emb x n v) <->
  exists a t : vec, [/\ size a = k, size t = size S, vany a & v = vadd (vmulm n a (if x then lx else lz)) (vmulm n t S)].
Proof.
move=> wX wW [[sx sz] [w1 w2] h1 h2 h3] /(counts_css _ _ wX wW) [eg cnt] eS sv.
rewrite nontrivial_emb //; rewrite eg in cnt; case: x eS => eS.
  by rewrite (side_comb sx h1 h2 h3 cnt eS sv) sx.
have h3' : mx k n lz *m (mx k n lx)^T = 1%:M by apply: trmx_inj; rewrite trmx_mul trmxK h3 trmx1.
have cnt' : (n + \rank (sp n W *m (sp n X)^T) = k + (\rank (sp n W) + \rank (sp n X)))%N.
  have -> : \rank (sp n W *m (sp n X)^T) = \rank (sp n X *m (sp n W)^T) by rewrite -mxrank_tr trmx_mul trmxK.
  by rewrite cnt [(_ + \rank (sp n W))%N]addnC.
by rewrite (side_comb sz h2 h1 h3' cnt' eS sv) sz.
Qed.
End Typed.
