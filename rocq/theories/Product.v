(* Two-block and (subsystem) hypergraph product codes: model of qldpc/codes/quantum.py:129-168, 635-758, 843-961. *)
From mathcomp Require Import all_ssreflect all_algebra zify.
From mathcomp Require Import mxtens.
From Verif Require Import LinAlg RowReduce Kron Classical ClassicalProofs ClassicalProofs2 Symplectic Quantum QuantumProofs QuantumOps.
From Verif Require Import Css CssForm CssLogs CssProofs CssGauge.
Set Implicit Arguments.
Unset Strict Implicit.
Unset Printing Implicit Defensive.
Import GRing.Theory.
Local Open Scope ring_scope.

(* ============================================================================== model *)
Section Model.
Variable F : fieldType.
Notation vec := (seq F).
Notation mat := (seq (seq F)).

(* quantum.py:146-168: TBCode(matrix_a, matrix_b, validate=..), for matrices with na and nb columns.  None is the
   ValueError, or the error of a product or a block matrix of the wrong shape.  np.array_equal is False for arrays of
   different shapes *)
Definition tb_code (na nb : nat) (A B : mat) (validate : bool) : option (csscode F) :=
  if validate && ~~ [&& na == size B, nb == size A, size A == size B & mull nb A B == mull na B A] then None
  else if (size A != size B) || (na != nb) then None
  else Some (mkcss (na + nb) (hcat A B) (hcat (trl nb B) (mopp (trl na A))) (Some false)).

(* quantum.py:741-758: HGPCode.get_matrix_product; n1, n2 are the numbers of columns *)
Definition hgp_x (n1 n2 : nat) (A B : mat) : mat := hcat (kron A (idl F n2)) (kron (idl F (size A)) (trl n2 B)).
Definition hgp_z (n1 n2 : nat) (A B : mat) : mat := hcat (mopp (kron (idl F n1) B)) (kron (trl n1 A) (idl F (size B))).

(* quantum.py:860-868 and 951-954: the matrix of pivots of a matrix with n columns *)
Definition pivots (n : nat) (G : mat) : mat :=
  let c := first_nonzero_cols G in mkmat (size G) n (fun i j => (j == nth 0%N c i)%:R).

(* quantum.py:843-878: HGPCode.get_canonical_logical_ops *)
Definition hgp_logs (a b : ccode F) : mat * mat :=
  let (n1, n2) := (cc_n a, cc_n b) in
  let (m1, m2) := (size (cc_mat a), size (cc_mat b)) in
  let ga := row_reduce n1 (generator a) in
  let gb := row_reduce n2 (generator b) in
  let gat := null_space m1 (trl n1 (cc_mat a)) in
  let gbt := null_space m2 (trl n2 (cc_mat b)) in
  (bdiag (n1 * n2) (m1 * m2) (kron (pivots n1 ga) gb) (kron gat (pivots m2 gbt)),
   bdiag (n1 * n2) (m1 * m2) (kron ga (pivots n2 gb)) (kron (pivots m1 gat) gbt)).

(* quantum.py:690-738: HGPCode(code_a, code_b, set_logicals=..); the sizes of the sectors are not modelled *)
Definition hgp (a b : ccode F) (set_logicals : bool) : option (csscode F) :=
  let (n1, n2) := (cc_n a, cc_n b) in
  let c := mkcss (n1 * n2 + size (cc_mat a) * size (cc_mat b)) (hgp_x n1 n2 (cc_mat a) (cc_mat b)) (hgp_z n1 n2 (cc_mat a) (cc_mat b)) (Some false) in
  if set_logicals then c_set_logical_ops_xz c (hgp_logs a b).1 (hgp_logs a b).2 false else Some c.

(* quantum.py:929-938: SHPCode.get_matrix_product *)
Definition shp_x (n2 : nat) (A : mat) : mat := kron A (idl F n2).
Definition shp_z (n1 : nat) (B : mat) : mat := kron (idl F n1) B.
(* quantum.py:940-961: SHPCode.get_canonical_logical_ops *)
Definition shp_logs (a b : ccode F) : mat * mat :=
  let (n1, n2) := (cc_n a, cc_n b) in
  let ga := row_reduce n1 (generator a) in
  let gb := row_reduce n2 (generator b) in
  (kron (pivots n1 ga) gb, kron ga (pivots n2 gb)).
(* quantum.py:922-924: the stabilizers that are set by the constructor *)
Definition shp_stabs (a b : ccode F) : mat :=
  let n := (cc_n a * cc_n b)%N in
  bdiag n n (kron (cc_mat a) (generator b)) (kron (mopp (generator a)) (cc_mat b)).
(* quantum.py:897-927: SHPCode(code_x, code_z, set_logicals=..) *)
Definition shp (a b : ccode F) (set_logicals : bool) : option (csscode F) :=
  let n := (cc_n a * cc_n b)%N in
  let c := c_set_stab (mkcss n (shp_x (cc_n b) (cc_mat a)) (shp_z (cc_n a) (cc_mat b)) (Some true)) (shp_stabs a b) in
  if set_logicals then c_set_logical_ops_xz c (shp_logs a b).1 (shp_logs a b).2 false else Some c.
End Model.

(* ============================================================================= proofs *)
Section Proofs.
Variable F : fieldType.
Notation vec := (seq F).
Notation mat := (seq (seq F)).
Notation Z n A := (sp (n + n) A :&: scomp (sp (n + n) A))%MS.

Lemma sp_mul0 n m p (X W : mat) : size X = m -> size W = p -> mx m n X *m (mx p n W)^T = 0 -> sp n X *m (sp n W)^T = 0.
Proof. by move=> <- <-. Qed.

Lemma mul_sp0 k n p (L : 'M[F]_(k, n)) (W : mat) : size W = p -> L *m (mx p n W)^T = 0 -> L *m (sp n W)^T = 0.
Proof. by move=> <-. Qed.

Lemma sp_rank n m (X : mat) : size X = m -> \rank (sp n X) = \rank (mx m n X).
Proof. by move=> <-. Qed.

Lemma rank_tens m n p q (A : 'M[F]_(m, n)) (B : 'M[F]_(p, q)) : \rank (A *t B) = (\rank A * \rank B)%N.
Proof.
have e : (A *t B :=: row_base A *t row_base B)%MS by apply/eqmxP/rV_eqP => u; rewrite !tens_span !eq_row_base.
by rewrite e; apply/eqP; apply: (row_free_tens (row_base_free A) (row_base_free B)).
Qed.

Lemma tens_ker m n p q (A : 'M[F]_(m, n)) (C : 'M[F]_(p, q)) (u : 'rV[F]_(m * p)) :
  (u *m (A *t (1%:M : 'M[F]_p)) == 0) && (u *m ((1%:M : 'M[F]_m) *t C) == 0) = (u <= kermx A *t kermx C)%MS.
Proof.
rewrite -!(unvec_eq0 (_ *m _)) !unvec_mul trmx1 mulmx1 mul1mx tens_span; congr andb; last by apply/eqP/sub_kermxP.
rewrite -trmx_eq0 trmx_mul trmxK; by apply/eqP/sub_kermxP.
Qed.

(* the rank of a matrix with the blocks A x 1 and 1 x C, in any order and up to signs *)
Lemma rank_two m n p q s t (A : 'M[F]_(m, n)) (C : 'M[F]_(p, q)) (P : 'M[F]_(m * p, s)) (Q : 'M[F]_(m * p, t)) :
  (forall u : 'rV_(m * p), (u *m P == 0) && (u *m Q == 0) = (u *m (A *t (1%:M : 'M[F]_p)) == 0) && (u *m ((1%:M : 'M[F]_m) *t C) == 0)) ->
  (\rank (row_mx P Q) + (m - \rank A) * (p - \rank C) = m * p)%N.
Proof.
move=> h; have e : (kermx (row_mx P Q) :=: kermx A *t kermx C)%MS.
  apply/eqmxP/rV_eqP => u; rewrite -tens_ker -h; apply/sub_kermxP/andP => [| [/eqP h1 /eqP h2]].
    by rewrite mul_mx_row => /eqP; rewrite row_mx_eq0 => /andP.
  by rewrite mul_mx_row h1 h2 row_mx0.
have := mxrank_ker (row_mx P Q); rewrite e rank_tens !mxrank_ker => ->.
by rewrite subnKC // rank_leq_row.
Qed.

Lemma hgp_arith ra rb n1 n2 m1 m2 rx rz : (rb <= n2 -> rb <= m2 -> ra <= n1 -> ra <= m1 ->
  rx + (m1 - ra) * (n2 - rb) = m1 * n2 -> rz + (n1 - ra) * (m2 - rb) = n1 * m2 ->
  n1 * n2 + m1 * m2 = (n1 - ra) * (n2 - rb) + (m1 - ra) * (m2 - rb) + (rx + rz))%N.
Proof.
move=> /subnK <- /subnK <- /subnK <- /subnK <-.
move: (n2 - rb)%N (m2 - rb)%N (n1 - ra)%N (m1 - ra)%N => b b' a a'; rewrite !addnK; nia.
Qed.

(* ----------------------------------------------------------- preset logical operators *)
Lemma preset_logs (c : csscode F) (lx lz : mat) k g : c_ok c -> css_dual (c_n c) k (c_x c) (c_z c) lx lz ->
  counts (c_n c) (css_mat (c_n c) (c_x c) (c_z c)) k g ->
  exists c', [/\ c_set_logical_ops_xz c lx lz false = Some c', c_ok c', c_dimension c' = k,
    c_get_logical_ops c' false = Some (bdiag (c_n c) (c_n c) lx lz) &
    (c_n c', c_x c', c_z c', c_sub c', c_stab c') = (c_n c, c_x c, c_z c, c_sub c, c_stab c)].
Proof.
move=> ok dl ct; have [[q1 q2 q3 q4 q5] wX wZ h1 h2] := ok; have [[sx sz] [w1 w2] _ _ _] := dl.
rewrite /c_set_logical_ops_xz /c_set_logical_ops /set_logical_ops /=; eexists; split; first by [].
- have lb := css_dual_basis wX wZ dl; split=> //=.
    split=> //= [l [<-] | k' [<-]]; first by exists k, g.
    by exists g; rewrite size_bdiag sx sz addnn -muln2 mulnK.
  by move=> l [<-]; exists lx, lz; split=> //; rewrite sx sz.
- by rewrite /c_dimension /= size_bdiag sx sz addnn -muln2 mulnK.
- by [].
by [].
Qed.

Lemma size_pivots n (G : mat) : size (pivots n G) = size G.
Proof. exact: size_mkmat. Qed.
Lemma wf_pivots n (G : mat) : wf n (pivots n G).
Proof. exact: wf_mkmat. Qed.

Lemma pivots_dual n (G : mat) : is_rref n G -> sp n G *m (mx (size G) n (pivots n G))^T = 1%:M.
Proof.
move=> rG; rewrite -(rref_sel rG); congr (_ *m _); apply/matrixP => i j.
by rewrite !mxE ent_mkmat.
Qed.

Lemma row_reduce_basis n (H G : mat) : is_basis n H G ->
  [/\ is_rref n (row_reduce n G), (sp n (row_reduce n G) :=: kermx (sp n H)^T)%MS & size (row_reduce n G) = size G].
Proof.
move=> bG; have wG := basis_wf bG; have [fr e] := basis_elim wG bG.
have sz := size_row_reduce wG.
have -> : row_reduce n G = canon n G.
  apply/esym/all_filterP; rewrite all_count sz -size_filter -/(canon n G) (size_canon wG).
  by rewrite (eqP fr).
by split; [exact: canon_rref | exact: eqmx_trans (sp_canon wG) e | rewrite (size_canon wG) (eqP fr)].
Qed.

Lemma ker_mul0 n m (H G : mat) : size G = m -> (sp n G :=: kermx (sp n H)^T)%MS -> mx m n G *m (sp n H)^T = 0.
Proof. by move=> <- e; apply/sub_kermxP; rewrite -e. Qed.

(* ------------------------------------------------------------------ hypergraph product *)
Section Hgp.
Variables (n1 n2 : nat) (A B : mat).
Hypotheses (wA : wf n1 A) (wB : wf n2 B).
Let m1 := size A.
Let m2 := size B.
Let n := (n1 * n2 + m1 * m2)%N.
Let MA : 'M[F]_(m1, n1) := sp n1 A.
Let MB : 'M[F]_(m2, n2) := sp n2 B.

Lemma size_hgp_x : size (hgp_x n1 n2 A B) = (m1 * n2)%N.
Proof. by rewrite size_hcat !size_kron ?size_idl ?size_trl. Qed.
Lemma size_hgp_z : size (hgp_z n1 n2 A B) = (n1 * m2)%N.
Proof. by rewrite size_hcat ?size_mopp !size_kron ?size_idl ?size_trl. Qed.
Lemma wf_hgp_x : wf n (hgp_x n1 n2 A B).
Proof. by apply: wf_hcat; apply: wf_kron => //; rewrite ?wf_idl ?wf_trl. Qed.
Lemma wf_hgp_z : wf n (hgp_z n1 n2 A B).
Proof. by apply: wf_hcat; rewrite ?wf_mopp ?wf_kron ?wf_idl ?wf_trl. Qed.

Lemma mx_hgp_x : mx (m1 * n2) n (hgp_x n1 n2 A B) = row_mx (MA *t 1%:M) (1%:M *t MB^T).
Proof.
rewrite (mx_hcat _ (n1 := (n1 * n2)%N)) ?size_kron ?size_idl ?size_trl ?wf_kron ?wf_idl //.
rewrite (@mx_kron _ m1 n1 n2 n2) ?size_idl ?wf_idl // (@mx_kron _ m1 m1 n2 m2) ?size_idl ?wf_idl ?size_trl ?wf_trl //.
by rewrite !mx_idl (mx_trl _ (m := m2)).
Qed.

Lemma mx_hgp_z : mx (n1 * m2) n (hgp_z n1 n2 A B) = row_mx (- (1%:M *t MB)) (MA^T *t 1%:M).
Proof.
rewrite (mx_hcat _ (n1 := (n1 * n2)%N)) ?size_mopp ?size_kron ?size_idl ?size_trl ?wf_mopp ?wf_kron ?wf_idl //.
rewrite mx_mopp (@mx_kron _ n1 n1 m2 n2) ?size_idl ?wf_idl // (@mx_kron _ n1 m1 m2 m2) ?size_idl ?wf_idl ?size_trl ?wf_trl //.
by rewrite !mx_idl (mx_trl _ (m := m1)).
Qed.

Lemma hgp_commute : sp n (hgp_x n1 n2 A B) *m (sp n (hgp_z n1 n2 A B))^T = 0.
Proof.
apply: (sp_mul0 size_hgp_x size_hgp_z); rewrite mx_hgp_x mx_hgp_z tr_row_mx mul_row_col linearN /= mulmxN.
by rewrite !trmx_tens !tensmx_mul !trmx1 !mulmx1 !mul1mx trmxK addNr.
Qed.

Lemma hgp_count : (n = (n1 - \rank MA) * (n2 - \rank MB) + (m1 - \rank MA) * (m2 - \rank MB) +
  (\rank (sp n (hgp_x n1 n2 A B)) + \rank (sp n (hgp_z n1 n2 A B))))%N.
Proof.
have rx := @rank_two m1 n1 n2 m2 _ _ MA MB^T (MA *t 1%:M) (1%:M *t MB^T) (fun u => erefl).
have rz : (\rank (row_mx (- (1%:M *t MB)) (MA^T *t 1%:M) : 'M_(n1 * m2, _)) + (n1 - \rank MA^T) * (m2 - \rank MB) = n1 * m2)%N.
  by apply: rank_two => u; rewrite mulmxN oppr_eq0 andbC.
rewrite (sp_rank _ size_hgp_x) (sp_rank _ size_hgp_z) mx_hgp_x mx_hgp_z.
move: rx rz; rewrite !mxrank_tr; set rx := \rank (row_mx _ _); set rz := \rank (row_mx _ _).
have := rank_leq_row MA; have := rank_leq_col MA; have := rank_leq_row MB; have := rank_leq_col MB.
exact: hgp_arith.
Qed.

(* logical operators, for generators in reduced form *)
Lemma hgp_dual (ga gb gat gbt : mat) : is_rref n1 ga -> is_rref n2 gb -> is_rref m1 gat -> is_rref m2 gbt ->
  (sp n1 ga :=: kermx MA^T)%MS -> (sp n2 gb :=: kermx MB^T)%MS ->
  (sp m1 gat :=: kermx MA)%MS -> (sp m2 gbt :=: kermx MB)%MS ->
  css_dual n (size ga * size gb + size gat * size gbt) (hgp_x n1 n2 A B) (hgp_z n1 n2 A B)
    (bdiag (n1 * n2) (m1 * m2) (kron (pivots n1 ga) gb) (kron gat (pivots m2 gbt)))
    (bdiag (n1 * n2) (m1 * m2) (kron ga (pivots n2 gb)) (kron (pivots m1 gat) gbt)).
Proof.
move=> ra rb rat rbt ea eb eat ebt.
have [[w1 _ _ _] [w2 _ _ _] [w3 _ _ _] [w4 _ _ _]] := And4 ra rb rat rbt.
have ka : sp n1 ga *m MA^T = 0 by apply/sub_kermxP; rewrite -ea.
have kb : sp n2 gb *m MB^T = 0 by apply/sub_kermxP; rewrite -eb.
have kat : sp m1 gat *m MA = 0 by apply/sub_kermxP; rewrite -eat.
have kbt : sp m2 gbt *m MB = 0 by apply/sub_kermxP; rewrite -ebt.
have mlx : mx (size ga * size gb + size gat * size gbt) n (bdiag (n1 * n2) (m1 * m2) (kron (pivots n1 ga) gb) (kron gat (pivots m2 gbt))) =
    block_mx (mx (size ga) n1 (pivots n1 ga) *t sp n2 gb) 0 0 (sp m1 gat *t mx (size gbt) m2 (pivots m2 gbt)).
  rewrite mx_bdiag ?size_kron ?size_pivots ?wf_kron ?wf_pivots //.
  by rewrite (@mx_kron _ (size ga) n1 (size gb) n2) ?size_pivots ?wf_pivots // (@mx_kron _ (size gat) m1 (size gbt) m2) ?size_pivots ?wf_pivots.
have mlz : mx (size ga * size gb + size gat * size gbt) n (bdiag (n1 * n2) (m1 * m2) (kron ga (pivots n2 gb)) (kron (pivots m1 gat) gbt)) =
    block_mx (sp n1 ga *t mx (size gb) n2 (pivots n2 gb)) 0 0 (mx (size gat) m1 (pivots m1 gat) *t sp m2 gbt).
  rewrite mx_bdiag ?size_kron ?size_pivots ?wf_kron ?wf_pivots //.
  by rewrite (@mx_kron _ (size ga) n1 (size gb) n2) ?size_pivots ?wf_pivots // (@mx_kron _ (size gat) m1 (size gbt) m2) ?size_pivots ?wf_pivots.
split.
- by rewrite !size_bdiag !size_kron !size_pivots.
- by split; apply: wf_bdiag; rewrite wf_kron ?wf_pivots.
- apply: (mul_sp0 size_hgp_z); rewrite mlx mx_hgp_z tr_row_mx linearN /= !trmx_tens !trmx1 trmxK mul_block_col.
  by rewrite !mul0mx addr0 add0r mulmxN !tensmx_mul kb kat tensmx0 tens0mx oppr0 col_mx0.
- apply: (mul_sp0 size_hgp_x); rewrite mlz mx_hgp_x tr_row_mx /= !trmx_tens !trmx1 trmxK mul_block_col.
  by rewrite !mul0mx addr0 add0r !tensmx_mul ka kbt tensmx0 tens0mx col_mx0.
rewrite mlx mlz tr_block_mx !trmx0 mulmx_block !mulmx0 !mul0mx !addr0 !add0r !trmx_tens !tensmx_mul.
rewrite (pivots_dual rb) (pivots_dual rat) -[X in X *t _]trmxK trmx_mul trmxK (pivots_dual ra).
rewrite -[X in block_mx _ _ _ (_ *t X)]trmxK trmx_mul trmxK (pivots_dual rbt) !trmx1 !tensmx11.
by rewrite -scalar_mx_block.
Qed.
End Hgp.

Lemma ker_sp n k (K : mat) : size K = k -> (kermx (sp n K)^T :=: kermx (mx k n K)^T)%MS.
Proof. by move=> <-. Qed.

Lemma null_trl n (H : mat) : wf n H ->
  let g := null_space (size H) (trl n H) in is_rref (size H) g /\ (sp (size H) g :=: kermx (sp n H))%MS.
Proof.
move=> wH /=; have [r e] := null_space_spec (wf_trl n H); split=> //; apply: eqmx_trans e _.
by apply: (eqmx_trans (ker_sp (size H) (size_trl n H))); rewrite (mx_trl n (erefl (size H))) trmxK.
Qed.

(* the constructor returns a valid code with the expected number of logical qudits *)
Theorem hgp_ok (a b : ccode F) set_logicals : code_ok a -> code_ok b ->
  exists c, [/\ hgp a b set_logicals = Some c, c_ok c,
    c_dimension c = (dimension a * dimension b + (size (cc_mat a) - rank a) * (size (cc_mat b) - rank b))%N,
    set_logicals -> c_get_logical_ops c false = Some (bdiag (c_n c) (c_n c) (hgp_logs a b).1 (hgp_logs a b).2) &
    [/\ c_n c = (cc_n a * cc_n b + size (cc_mat a) * size (cc_mat b))%N, c_x c = hgp_x (cc_n a) (cc_n b) (cc_mat a) (cc_mat b),
      c_z c = hgp_z (cc_n a) (cc_n b) (cc_mat a) (cc_mat b) & c_sub c = false]].
Proof.
move=> oka okb; have [wA _ _] := oka; have [wB _ _] := okb.
have [ra ea sa] := row_reduce_basis (gen_basis oka); have [rb eb sb] := row_reduce_basis (gen_basis okb).
have [rat eat] := null_trl wA; have [rbt ebt] := null_trl wB.
have dl := hgp_dual wA wB ra rb rat rbt ea eb eat ebt; have cm := hgp_commute wA wB; have ct := hgp_count wA wB.
have wX : wf (cc_n a * cc_n b + size (cc_mat a) * size (cc_mat b)) (hgp_x (cc_n a) (cc_n b) (cc_mat a) (cc_mat b)) by apply: wf_hgp_x.
have wZ : wf (cc_n a * cc_n b + size (cc_mat a) * size (cc_mat b)) (hgp_z (cc_n a) (cc_n b) (cc_mat a) (cc_mat b)) by apply: wf_hgp_z.
set n := (cc_n a * cc_n b + size (cc_mat a) * size (cc_mat b))%N.
set X := hgp_x _ _ _ _ in dl cm ct wX *; set Z0 := hgp_z _ _ _ _ in dl cm ct wZ *.
have ok : c_ok (mkcss n X Z0 (Some false)) by apply: c_ok_mk.
set k := (dimension a * _ + _)%N.
have hk : counts n (css_mat n X Z0) k 0.
  apply/(counts_css _ _ wX wZ); rewrite cm mxrank0; split=> //.
  by rewrite addn0 {1}ct /k (dim_ok oka) (dim_ok okb) (rank_ok oka) (rank_ok okb).
have ek : (size (row_reduce (cc_n a) (generator a)) * size (row_reduce (cc_n b) (generator b)) +
    size (null_space (size (cc_mat a)) (trl (cc_n a) (cc_mat a))) * size (null_space (size (cc_mat b)) (trl (cc_n b) (cc_mat b))))%N = k.
  rewrite sa sb /k (dim_gen oka) (dim_gen okb) (rank_ok oka) (rank_ok okb) -(rref_rank rat) -(rref_rank rbt) eat ebt.
  by rewrite !mxrank_ker.
rewrite ek in dl; case: set_logicals; rewrite /hgp -/n -/X -/Z0.
  have [c' [e1 e2 e3 e4 [e5 e6 e7 e8 _]]] := preset_logs ok dl hk; exists c'; split=> //.
  by move=> _; rewrite e5.
eexists; split; first by []; rewrite ?ok //.
by have [] := counts_unique (wf_css wX wZ) (c_counts ok) hk.
Qed.

(* ---------------------------------------------------------- subsystem hypergraph product *)
Lemma shp_arith n1 n2 ra rb : (ra <= n1 -> rb <= n2 -> n1 * n2 + ra * rb = (n1 - ra) * (n2 - rb) + (ra * n2 + n1 * rb))%N.
Proof. by move=> /subnK <- /subnK <-; move: (n1 - ra)%N (n2 - rb)%N => x y; rewrite !addnK; nia. Qed.

Section Shp.
Variables (n1 n2 : nat) (A B : mat).
Hypotheses (wA : wf n1 A) (wB : wf n2 B).
Let m1 := size A.
Let m2 := size B.
Let n := (n1 * n2)%N.
Let MA : 'M[F]_(m1, n1) := sp n1 A.
Let MB : 'M[F]_(m2, n2) := sp n2 B.

Lemma wf_shp_x : wf n (shp_x n2 A). Proof. by rewrite wf_kron ?wf_idl. Qed.
Lemma wf_shp_z : wf n (shp_z n1 B). Proof. by rewrite wf_kron ?wf_idl. Qed.
Lemma size_shp_x : size (shp_x n2 A) = (m1 * n2)%N. Proof. by rewrite size_kron size_idl. Qed.
Lemma size_shp_z : size (shp_z n1 B) = (n1 * m2)%N. Proof. by rewrite size_kron size_idl. Qed.
Lemma mx_shp_x : mx (m1 * n2) n (shp_x n2 A) = MA *t 1%:M.
Proof. by rewrite (@mx_kron _ m1 n1 n2 n2) ?size_idl ?wf_idl // mx_idl. Qed.
Lemma mx_shp_z : mx (n1 * m2) n (shp_z n1 B) = 1%:M *t MB.
Proof. by rewrite (@mx_kron _ n1 n1 m2 n2) ?size_idl ?wf_idl // mx_idl. Qed.

Lemma shp_counts : counts n (css_mat n (shp_x n2 A) (shp_z n1 B)) ((n1 - \rank MA) * (n2 - \rank MB)) (\rank MA * \rank MB).
Proof.
apply/(counts_css _ _ wf_shp_x wf_shp_z); rewrite (sp_rank _ size_shp_x) (sp_rank _ size_shp_z) mx_shp_x mx_shp_z !rank_tens !mxrank1.
split.
  have -> : \rank (sp n (shp_x n2 A) *m (sp n (shp_z n1 B))^T) = \rank ((MA *t 1%:M) *m (1%:M *t MB)^T).
    by rewrite -mx_shp_x -mx_shp_z; case: _ / size_shp_x; case: _ / size_shp_z.
  by rewrite trmx_tens trmx1 tensmx_mul mulmx1 mul1mx rank_tens mxrank_tr.
exact: shp_arith (rank_leq_col MA) (rank_leq_col MB).
Qed.

Lemma shp_dual (ga gb : mat) : is_rref n1 ga -> is_rref n2 gb ->
  (sp n1 ga :=: kermx MA^T)%MS -> (sp n2 gb :=: kermx MB^T)%MS ->
  css_dual n (size ga * size gb) (shp_x n2 A) (shp_z n1 B) (kron (pivots n1 ga) gb) (kron ga (pivots n2 gb)).
Proof.
move=> ra rb ea eb; have [w1 _ _ _] := ra; have [w2 _ _ _] := rb.
have ka : sp n1 ga *m MA^T = 0 by apply/sub_kermxP; rewrite -ea.
have kb : sp n2 gb *m MB^T = 0 by apply/sub_kermxP; rewrite -eb.
split.
- by rewrite !size_kron !size_pivots.
- by split; rewrite wf_kron ?wf_pivots.
- apply: (mul_sp0 size_shp_z); rewrite (@mx_kron _ (size ga) n1 (size gb) n2) ?size_pivots ?wf_pivots // mx_shp_z.
  by rewrite trmx_tens tensmx_mul kb tensmx0.
- apply: (mul_sp0 size_shp_x); rewrite (@mx_kron _ (size ga) n1 (size gb) n2) ?size_pivots ?wf_pivots // mx_shp_x.
  by rewrite trmx_tens tensmx_mul ka tens0mx.
rewrite !(@mx_kron _ (size ga) n1 (size gb) n2) ?size_pivots ?wf_pivots // trmx_tens tensmx_mul (pivots_dual rb).
by rewrite -[X in X *t _]trmxK trmx_mul trmxK (pivots_dual ra) trmx1 tensmx11.
Qed.

(* the preset stabilizers generate the centre of the gauge group *)
Lemma shp_center (ga gb : mat) : wf n1 ga -> wf n2 gb ->
  (sp n1 ga :=: kermx MA^T)%MS -> (sp n2 gb :=: kermx MB^T)%MS ->
  (sp (n + n) (bdiag n n (kron A gb) (kron (mopp ga) B)) :=: Z n (css_mat n (shp_x n2 A) (shp_z n1 B)))%MS.
Proof.
move=> w1 w2 ea eb; apply: eqmx_trans (eqmx_sym (css_center wf_shp_x wf_shp_z)).
apply: eqmx_trans (sp_css (wf_kron wA w2) (wf_kron (wf_mopp w1) wB)) _.
apply: block_eqmx; apply/eqmxP/rV_eqP => u.
  have -> : (u <= sp n (kron A gb))%MS = (u <= MA *t sp n2 gb)%MS.
    by rewrite -(@mx_kron _ m1 n1 (size gb) n2) //; case: _ / (size_kron A gb).
  have -> : (u <= sp n (shp_x n2 A) :&: kermx (sp n (shp_z n1 B))^T)%MS = (u <= (MA *t 1%:M) :&: kermx (1%:M *t MB)^T)%MS.
    by rewrite -mx_shp_x -mx_shp_z; case: _ / size_shp_x; case: _ / size_shp_z.
  rewrite sub_capmx !tens_span submx1 andbT; congr andb; rewrite eb; apply/sub_kermxP/sub_kermxP => h.
    by apply: unvec_inj; rewrite trmx_tens trmx1 unvec_mul trmx1 mul1mx h unvec0.
  by move: h => /(congr1 (@unvec _ _ _)); rewrite trmx_tens trmx1 unvec_mul trmx1 mul1mx unvec0.
have -> : (u <= sp n (kron (mopp ga) B))%MS = (u <= sp n1 ga *t MB)%MS.
  have sz : size (kron (mopp ga) B) = (size ga * m2)%N by rewrite size_kron size_mopp.
  have -> : (u <= sp n (kron (mopp ga) B))%MS = (u <= mx (size ga * m2) n (kron (mopp ga) B))%MS by case: _ / sz.
  by rewrite (@mx_kron _ (size ga) n1 m2 n2) ?size_mopp ?wf_mopp // mx_mopp !tens_span eqmx_opp.
have -> : (u <= sp n (shp_z n1 B) :&: kermx (sp n (shp_x n2 A))^T)%MS = (u <= (1%:M *t MB) :&: kermx (MA *t 1%:M)^T)%MS.
  by rewrite -mx_shp_x -mx_shp_z; case: _ / size_shp_x; case: _ / size_shp_z.
rewrite sub_capmx !tens_span submx1 andTb andbC; congr andb; rewrite ea; apply/sub_kermxP/sub_kermxP => h.
  by apply: unvec_inj; rewrite trmx_tens trmx1 unvec_mul mulmx1 unvec0 trmxK; apply: trmx_inj; rewrite trmx_mul trmx0.
move: h => /(congr1 (@unvec _ _ _)); rewrite trmx_tens trmx1 unvec_mul mulmx1 unvec0 trmxK => /(congr1 trmx).
by rewrite trmx_mul trmx0.
Qed.
End Shp.

Theorem shp_ok (a b : ccode F) set_logicals : code_ok a -> code_ok b ->
  exists c, [/\ shp a b set_logicals = Some c, c_ok c, c_dimension c = (dimension a * dimension b)%N,
    set_logicals -> c_get_logical_ops c false = Some (bdiag (c_n c) (c_n c) (shp_logs a b).1 (shp_logs a b).2) &
    [/\ c_n c = (cc_n a * cc_n b)%N, c_x c = shp_x (cc_n b) (cc_mat a), c_z c = shp_z (cc_n a) (cc_mat b), c_sub c &
      c_get_stabilizer_ops c false false = (shp_stabs a b, c)]].
Proof.
move=> oka okb; have [wA _ _] := oka; have [wB _ _] := okb.
have [ra ea sa] := row_reduce_basis (gen_basis oka); have [rb eb sb] := row_reduce_basis (gen_basis okb).
have wga := basis_wf (gen_basis oka); have wgb := basis_wf (gen_basis okb).
have [_ ea'] := basis_elim wga (gen_basis oka); have [_ eb'] := basis_elim wgb (gen_basis okb).
have dl := shp_dual wA wB ra rb ea eb; have ct := shp_counts wA wB; have cc := shp_center wA wB wga wgb ea' eb'.
have wX : wf (cc_n a * cc_n b) (shp_x (cc_n b) (cc_mat a)) by apply: wf_shp_x.
have wZ : wf (cc_n a * cc_n b) (shp_z (cc_n a) (cc_mat b)) by apply: wf_shp_z.
set n := (cc_n a * cc_n b)%N.
have wK : wf n (kron (cc_mat a) (generator b)) by apply: wf_kron.
have wS : wf (n + n) (shp_stabs a b) by apply: wf_bdiag => //; apply: wf_kron => //; apply: wf_mopp.
have ty r : r \in shp_stabs a b -> css_typed n r by apply: (typed_bdiag wK).
rewrite -/(shp_stabs a b) in cc.
set c := c_set_stab (mkcss n (shp_x (cc_n b) (cc_mat a)) (shp_z (cc_n a) (cc_mat b)) (Some true)) (shp_stabs a b).
have ok : c_ok c.
  split=> //=; last by move=> s [<-].
  split=> //=; first exact: wf_css.
  by move=> s [<-]; split=> //; apply/center_span => //; exact: wf_css.
rewrite sa sb -!dim_gen // in dl; rewrite -(dim_ok oka) -(dim_ok okb) in ct.
rewrite /shp -/n -/c; case: set_logicals.
  have [c' [e1 e2 e3 e4 [e5 e6 e7 e8 e9]]] := preset_logs ok dl ct; exists c'; split=> //; first by move=> _; rewrite e5.
  split=> //.
  by rewrite /c_get_stabilizer_ops e8 e9 /=; case: (c') e9 => ? ? ? ? ? ? ? ? /= ->.
exists c; split=> //.
by have [] := counts_unique (wf_css wX wZ) (c_counts ok) ct.
Qed.

(* ------------------------------------------------------------------------- two blocks *)
Definition mcommute (r : nat) (A B : mat) : Prop :=
  forall i j, (i < r)%N -> (j < r)%N -> \sum_(k < r) ent A i k * ent B k j = \sum_(k < r) ent B i k * ent A k j.

Lemma mcommuteP r (A B : mat) : mcommute r A B <-> mx r r A *m mx r r B = mx r r B *m mx r r A.
Proof.
split=> [h | /matrixP h i j hi hj].
  by apply/matrixP => i j; rewrite !mxE; under eq_bigr do rewrite !mxE; rewrite h //; apply: eq_bigr => k _; rewrite !mxE.
have := h (Ordinal hi) (Ordinal hj); rewrite !mxE; under eq_bigr do rewrite !mxE; move=> ->.
by apply: eq_bigr => k _; rewrite !mxE.
Qed.

Lemma tb_checks r (A B : mat) : wf r A -> wf r B -> size A = r -> size B = r -> mcommute r A B ->
  let X := hcat A B in let Z0 := hcat (trl r B) (mopp (trl r A)) in
  [/\ wf (r + r) X, wf (r + r) Z0 & sp (r + r) X *m (sp (r + r) Z0)^T = 0].
Proof.
move=> wA wB sA sB /mcommuteP cm /=.
have wtA : wf r (trl r A) by rewrite -{1}sA wf_trl.
have wtB : wf r (trl r B) by rewrite -{1}sB wf_trl.
split; [exact: wf_hcat | by apply: wf_hcat => //; apply: wf_mopp |].
apply: (@sp_mul0 _ r r); rewrite ?size_hcat ?sA ?size_mopp ?size_trl //.
rewrite !(mx_hcat _ (n1 := r)) ?size_mopp ?size_trl // mx_mopp !(mx_trl _ (m := r)) //.
by rewrite tr_row_mx mul_row_col linearN /= mulmxN !trmxK cm subrr.
Qed.

(* the constructor accepts exactly square commuting matrices of the same size (when asked to check) *)
Theorem tb_accepts na nb (A B : mat) : wf na A -> wf nb B ->
  (exists c, tb_code na nb A B true = Some c) <-> [/\ size A = na, size B = na, nb = na & mcommute na A B].
Proof.
move=> wA wB; rewrite /tb_code /=; split=> [[c] | [sA sB e5 cm]]; last rewrite e5 in wB *.
  case: ifP => // /negbFE /and4P [/eqP e1 /eqP e2 /eqP e3 /eqP e4]; case: ifP => // /norP [_ /negPn /eqP e5] _.
  have sA : size A = na by rewrite e3.
  have sB : size B = na by rewrite e1.
  split=> //; apply/mcommuteP; rewrite -e5 in wB e4.
  by rewrite -(mx_mull na sA wA sB) -(mx_mull na sB wB sA) e4.
rewrite sA sB !eqxx /=; have -> : mull na A B == mull na B A.
  apply/eqP/(@mx_inj _ na na); rewrite ?size_mull ?wf_mull //.
  by rewrite (mx_mull na sA wA sB) (mx_mull na sB wB sA); apply/mcommuteP.
by eexists.
Qed.

Theorem tb_ok r (A B : mat) (validate : bool) : wf r A -> wf r B -> size A = r -> size B = r -> mcommute r A B ->
  exists c, [/\ tb_code r r A B validate = Some c, c_ok c, c_sub c = false & (c_n c, c_x c, c_z c) =
    ((r + r)%N, hcat A B, hcat (trl r B) (mopp (trl r A)))].
Proof.
move=> wA wB sA sB cm; have [wX wZ h] := tb_checks wA wB sA sB cm.
have e : mull r A B == mull r B A.
  by apply/eqP/(@mx_inj _ r r); rewrite ?size_mull ?wf_mull // (mx_mull r sA wA sB) (mx_mull r sB wB sA); apply/mcommuteP.
rewrite /tb_code sA sB !eqxx e /= andbF; eexists; split; first by [].
- exact: c_ok_mk.
- by [].
by [].
Qed.
End Proofs.
