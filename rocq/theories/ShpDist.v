(* Distances of subsystem hypergraph product codes, and the Bacon-Shor and SHYPS codes: model of
   qldpc/codes/quantum.py:881-961 and 1567-1609. *)
From mathcomp Require Import all_ssreflect all_algebra zify.
From mathcomp.real_closed Require Import mxtens.
From Verif Require Import LinAlg RowReduce Classical ClassicalProofs ClassicalProofs2 Kron Symplectic Quantum QuantumProofs
  QuantumOps Css CssForm CssLogs CssProofs CssGauge PropsClassical PropsCss ClassicalDist Families Product QuantumDist CssDist ErrorRate.
Set Implicit Arguments.
Unset Strict Implicit.
Unset Printing Implicit Defensive.
Import GRing.Theory.
Local Open Scope ring_scope.

(* ======================================================================== model *)
Section Model.
Variable F : fieldType.

(* quantum.py:1567-1584: BaconShorCode(rows, cols, field, set_logicals) *)
Definition bacon_shor_code (rows : nat) (cols : option nat) (set_logicals : bool) : option (csscode F) :=
  if repetition F rows is Some (a, d) then
    if (if cols is Some k then repetition F k else Some (a, d)) is Some (b, _) then shp a b set_logicals else None
  else None.

(* quantum.py:1587-1609: SHYPSCode(dim_x, dim_z, set_logicals), with the distances that it stores; self._dimension is set at the
   end *)
Definition shyps (dim_x : nat) (dim_z : option nat) (set_logicals : bool) : option (csscode F * dstate) :=
  let dim_z := odflt dim_x dim_z in
  if simplex_code F dim_x is Some (a, da) then
    if simplex_code F dim_z is Some (b, db) then
      if shp a b set_logicals is Some c then
        Some (CSS (c_n c) (c_x c) (c_z c) (c_sub c) (c_stab c) (c_gauge c) (c_logs c) (Some (dim_x * dim_z)%N),
              DState (Some db) (Some da) None (c_x c == c_z c))
      else None
    else None
  else None.
End Model.

(* ======================================================================== proofs *)
Section Mx.
Variable F : fieldType.

Definition supp m n (V : 'M[F]_(m, n)) : nat := (\sum_i \sum_j (V i j != 0%R))%N.

Lemma supp_tr m n (V : 'M[F]_(m, n)) : supp V^T = supp V.
Proof. by rewrite /supp exchange_big; apply: eq_bigr => i _; apply: eq_bigr => j _; rewrite mxE. Qed.

(* an undetected operator that is no gauge operator contains a nonzero code word in its columns *)
Lemma shp_lower m1 n1 m2 n2 (A : 'M[F]_(m1, n1)) (B : 'M[F]_(m2, n2)) (V : 'M[F]_(n1, n2)) :
  kermx A^T *m V *m B^T = 0 -> ~~ (V^T <= A)%MS -> exists r : 'rV[F]_n2, [/\ r *m B^T = 0, r != 0 & (supp r <= supp V)%N].
Proof.
move=> h; rewrite (orth_orth A) => /negP nv.
have nz : kermx A^T *m V != 0.
  by apply/eqP => e; apply: nv; apply/sub_kermxP; apply: trmx_inj; rewrite trmx_mul !trmxK e trmx0.
have [i ni] : exists i, row i (kermx A^T *m V) != 0.
  apply/existsP; apply: contraNT nz => /existsPn hn; apply/eqP/row_matrixP => i; rewrite row0.
  by apply/eqP; have := hn i; rewrite negbK.
exists (row i (kermx A^T *m V)); split=> //; first by rewrite -row_mul h row0.
rewrite /supp big_ord1 [X in (_ <= X)%N]exchange_big; apply: leq_sum => j _; rewrite !mxE.
case: eqP => //= /eqP nj; apply: contraT; rewrite -eqn0Ngt sum_nat_eq0 => /forallP z.
case/eqP: nj; rewrite big1 // => k _; have := z k; rewrite /= eqb0 negbK => /eqP ->; by rewrite mulr0.
Qed.

Lemma mx_nz m n (M : 'M[F]_(m, n)) : M != 0 -> exists i j, M i j != 0.
Proof.
move=> nM; have /existsP[i /existsP[j h]] : [exists i, [exists j, M i j != 0]]; last by exists i, j.
apply: contraNT nM => /existsPn hn; apply/eqP/matrixP => i j; rewrite [RHS]mxE.
by have /existsPn /(_ j) := hn i; rewrite negbK => /eqP.
Qed.

(* a code word in one row is an undetected operator, which is no gauge operator for a suitable row *)
Lemma shp_upper m1 n1 m2 n2 (A : 'M[F]_(m1, n1)) (B : 'M[F]_(m2, n2)) (r : 'rV[F]_n2) : kermx A^T != 0 -> r != 0 ->
  r *m B^T = 0 -> exists V : 'M[F]_(n1, n2), [/\ V *m B^T = 0, ~~ (V^T <= A)%MS & supp V = supp r].
Proof.
move=> nK nr hr.
have [i [p nip]] := mx_nz nK; have [i0 [j nj]] := mx_nz nr; rewrite (ord1 i0) in nj.
exists (delta_mx p 0 *m r); split.
- by rewrite -mulmxA hr mulmx0.
- apply/negP; rewrite (orth_orth A) => /sub_kermxP /(congr1 trmx); rewrite trmx_mul !trmxK trmx0 mulmxA.
  move: nip; move: (kermx A^T) i => K i nip /matrixP /(_ i j); rewrite !mxE big_ord1 !mxE (bigD1 p) //= big1 ?addr0; last first.
    by move=> k nk; rewrite !mxE (negbTE nk) mulr0.
  by rewrite !mxE eqxx mulr1 => /eqP; rewrite mulf_eq0 (negbTE nip) (negbTE nj).
rewrite /supp big_ord1 (bigD1 p) //= [X in (_ + X)%N]big1 ?addn0.
  by apply: eq_bigr => l _; rewrite !mxE big_ord1 !mxE eqxx mul1r.
by move=> k nk; rewrite big1 // => l _; rewrite !mxE big_ord1 !mxE (negbTE nk) mul0r eqxx.
Qed.
End Mx.

Section Dist.
Variable F : fieldType.
Notation vec := (seq F).
Notation mat := (seq (seq F)).

Lemma hwt_supp n (v : vec) : size v = n -> hwt v = supp (rv n v).
Proof.
move=> sv; rewrite (hwtE sv) /supp big_ord1 -sum1_count big_mkcond /= -{1}(subn0 n) -/(index_iota 0 n) big_mkord.
by apply: eq_bigr => j _; rewrite mxE; case: (_ != 0).
Qed.

Lemma supp_unvec n1 n2 (w : 'rV[F]_(n1 * n2)) : supp (unvec w) = supp w.
Proof.
rewrite /supp big_ord1 pair_big /=; apply/esym.
rewrite (reindex (fun p : 'I_n1 * 'I_n2 => mxtens_index (p.1, p.2))) /=; last first.
  exists (@mxtens_unindex n1 n2) => [[i j] _ | k _]; first exact: mxtens_indexK.
  by rewrite -surjective_pairing mxtens_unindexK.
by apply: eq_bigr => -[i j] _; rewrite mxE.
Qed.

Lemma is_tdistE n (x : bool) (X W : mat) d : wf n X -> wf n W -> is_tdist x n (css_mat n X W) d <->
  let P v := if x then tnon n X W v else tnon n W X v in
  ((exists2 v, P v & hwt v = d) /\ (forall v, P v -> (d <= hwt v)%N)).
Proof.
move=> wX wW /=; split=> -[[v]].
  case=> sv /(nontrivial_emb _ wX wW sv) nv e m0; split; first by exists v.
  by move=> v' nv'; apply: m0; [move: nv'; case: (x) => -[] | apply/(nontrivial_emb _ wX wW) => //; move: nv'; case: (x) => -[]].
move=> nv e m0; have sv : size v = n by move: nv; case: (x) => -[].
by split; [exists v; split=> //; apply/(nontrivial_emb _ wX wW sv) | move=> v' sv' /(nontrivial_emb _ wX wW sv'); apply: m0].
Qed.

Section Sides.
Variables (n1 n2 : nat) (A B : mat).
Hypotheses (wA : wf n1 A) (wB : wf n2 B).
Let n := (n1 * n2)%N.
Let MA : 'M[F]_(size A, n1) := sp n1 A.
Let MB : 'M[F]_(size B, n2) := sp n2 B.

Lemma sp_shp_x : (sp n (shp_x n2 A) :=: MA *t (1%:M : 'M_n2))%MS.
Proof. by rewrite -(mx_shp_x n2 wA); case: _ / (size_shp_x n2 A). Qed.
Lemma sp_shp_z : (sp n (shp_z n1 B) :=: (1%:M : 'M_n1) *t MB)%MS.
Proof. by rewrite -(mx_shp_z n1 wB); case: _ / (size_shp_z n1 B). Qed.

Lemma in_x (w : 'rV[F]_n) : (w <= sp n (shp_x n2 A))%MS = ((unvec w)^T <= MA)%MS.
Proof. by rewrite sp_shp_x tens_span submx1 andbT. Qed.
Lemma in_z (w : 'rV[F]_n) : (w <= sp n (shp_z n1 B))%MS = (unvec w <= MB)%MS.
Proof. by rewrite sp_shp_z tens_span submx1. Qed.

Definition nzw m (H : mat) (r : vec) : Prop := is_word m H r /\ exists j, nth 0 r j <> 0.

Lemma nzwE m (H : mat) (r : vec) : size r = m -> nzw m H r <-> rv m r *m (sp m H)^T = 0 /\ rv m r != 0.
Proof.
move=> sr; rewrite /nzw (is_wordE _ sr) (rv_eq0 sr) negbK; split=> -[h1 h2]; split=> //.
  case: h2 => j /eqP nj; apply/(has_nthP 0); exists j => //; rewrite ltnNge; apply: contra nj => le.
  by rewrite nth_default.
by case/(has_nthP 0): h2 => j _ /eqP; exists j.
Qed.

Lemma x_lower v : tnon n (shp_x n2 A) (shp_z n1 B) v -> exists2 r, nzw n2 B r & (hwt r <= hwt v)%N.
Proof.
case=> sv h; rewrite in_x => nv.
have [|r [e nr le]] := shp_lower (A := MA) (B := MB) (V := unvec (rv n v)) _ nv; last first.
  have sr := size_lrv r; exists (lrv r); last by rewrite (hwt_supp sv) (hwt_supp sr) rv_lrv -(supp_unvec (rv n v)).
  by apply/(nzwE _ sr); rewrite rv_lrv.
have le : (kermx MA^T *t MB <= sp n (shp_z n1 B) :&: kermx (sp n (shp_x n2 A))^T)%MS.
  rewrite sub_capmx; apply/andP; split.
    have -> : kermx MA^T *t MB = (kermx MA^T *t 1%:M) *m (1%:M *t MB) by rewrite tensmx_mul mulmx1 mul1mx.
    by rewrite sp_shp_z submxMl.
  have := sp_shp_x; move=> /eqmxP /andP [/submxP [D ->] _].
  by apply/sub_kermxP; rewrite trmx_mul mulmxA trmx_tens tensmx_mul mulmx_ker tens0mx mul0mx.
move/sub_kermxP: h => h; case/submxP: le => D eD.
have : rv n v *m (kermx MA^T *t MB)^T = 0 by rewrite eD trmx_mul mulmxA h mul0mx.
by move=> /(congr1 (@unvec _ _ _)); rewrite trmx_tens unvec_mul unvec0 trmxK.
Qed.

Lemma z_lower v : tnon n (shp_z n1 B) (shp_x n2 A) v -> exists2 r, nzw n1 A r & (hwt r <= hwt v)%N.
Proof.
case=> sv h; rewrite in_z => nv.
have [||r [e nr le]] := shp_lower (A := MB) (B := MA) (V := (unvec (rv n v))^T); rewrite ?trmxK //; last first.
  have sr := size_lrv r; exists (lrv r); last by move: le; rewrite (hwt_supp sv) (hwt_supp sr) rv_lrv -(supp_unvec (rv n v)) supp_tr.
  by apply/(nzwE _ sr); rewrite rv_lrv.
have le : (MA *t kermx MB^T <= sp n (shp_x n2 A) :&: kermx (sp n (shp_z n1 B))^T)%MS.
  rewrite sub_capmx; apply/andP; split.
    have -> : MA *t kermx MB^T = (1%:M *t kermx MB^T) *m (MA *t 1%:M) by rewrite tensmx_mul mulmx1 mul1mx.
    by rewrite sp_shp_x submxMl.
  have := sp_shp_z; move=> /eqmxP /andP [/submxP [D ->] _].
  by apply/sub_kermxP; rewrite trmx_mul mulmxA trmx_tens tensmx_mul mulmx_ker tensmx0 mul0mx.
move/sub_kermxP: h => h; case/submxP: le => D eD.
have : rv n v *m (MA *t kermx MB^T)^T = 0 by rewrite eD trmx_mul mulmxA h mul0mx.
move=> /(congr1 (@unvec _ _ _)); rewrite trmx_tens unvec_mul unvec0 trmxK => /(congr1 trmx).
by rewrite [in X in X -> _]trmx_mul trmxK trmx_mul trmx0 mulmxA => e; apply: e.
Qed.

Lemma ker_nz m (H : mat) k : wf m H -> has_dim m H k -> (0 < k)%N -> kermx (sp m H)^T != 0.
Proof. by move=> wH /(has_dimE _ wH) ->; rewrite -mxrank_eq0 mxrank_ker mxrank_tr lt0n. Qed.

Lemma x_upper k r : has_dim n1 A k -> (0 < k)%N -> nzw n2 B r ->
  exists2 v, tnon n (shp_x n2 A) (shp_z n1 B) v & hwt v = hwt r.
Proof.
move=> hk k0 nr; have [[sr _] _] := nr; move/(nzwE _ sr): nr => [e nz].
have [V [eV nV sV]] := shp_upper (A := MA) (ker_nz wA hk k0) nz e.
have sv := size_lrv (tovec V); exists (lrv (tovec V)); last by rewrite (hwt_supp sv) (hwt_supp sr) rv_lrv -supp_unvec tovecK.
split=> //; last by rewrite rv_lrv in_x tovecK.
apply/sub_kermxP; have /submxP [D eD] : (sp n (shp_z n1 B) :&: kermx (sp n (shp_x n2 A))^T <= (1%:M : 'M_n1) *t MB)%MS.
  by rewrite -sp_shp_z capmxSl.
rewrite eD trmx_mul mulmxA rv_lrv; apply/eqP; have -> : tovec V *m (1%:M *t MB)^T = 0; last by rewrite mul0mx.
by apply: unvec_inj; rewrite trmx_tens unvec_mul unvec0 trmxK mul1mx tovecK eV.
Qed.

Lemma z_upper k r : has_dim n2 B k -> (0 < k)%N -> nzw n1 A r ->
  exists2 v, tnon n (shp_z n1 B) (shp_x n2 A) v & hwt v = hwt r.
Proof.
move=> hk k0 nr; have [[sr _] _] := nr; move/(nzwE _ sr): nr => [e nz].
have [V [eV nV sV]] := shp_upper (A := MB) (ker_nz wB hk k0) nz e.
have sv := size_lrv (tovec V^T); exists (lrv (tovec V^T)).
  split=> //; last by rewrite rv_lrv in_z tovecK.
  apply/sub_kermxP; have /submxP [D eD] : (sp n (shp_x n2 A) :&: kermx (sp n (shp_z n1 B))^T <= MA *t (1%:M : 'M_n2))%MS.
    by rewrite -sp_shp_x capmxSl.
  rewrite eD trmx_mul mulmxA rv_lrv; apply/eqP; have -> : tovec V^T *m (MA *t 1%:M)^T = 0; last by rewrite mul0mx.
  apply: unvec_inj; rewrite trmx_tens unvec_mul unvec0 trmxK trmx1 mulmx1 tovecK.
  by apply: trmx_inj; rewrite trmx_mul trmxK eV trmx0.
by rewrite (hwt_supp sv) (hwt_supp sr) rv_lrv -supp_unvec tovecK supp_tr.
Qed.

(* minimal weights that bound each other *)
Lemma min_iff (P Q : vec -> Prop) d :
  (forall v, P v -> exists2 r, Q r & (hwt r <= hwt v)%N) -> (forall r, Q r -> exists2 v, P v & hwt v = hwt r) ->
  ((exists2 v, P v & hwt v = d) /\ (forall v, P v -> (d <= hwt v)%N)) <->
  ((exists2 r, Q r & hwt r = d) /\ (forall r, Q r -> (d <= hwt r)%N)).
Proof.
move=> lo up; split=> -[[v pv ev] m]; split.
- have [r qr le] := lo v pv; exists r => //; apply/eqP; rewrite eqn_leq -{1}ev le /=.
  by have [v' pv' <-] := up r qr; apply: m.
- by move=> r qr; have [v' pv' <-] := up r qr; apply: m.
- by have [v' pv' e] := up v pv; exists v' => //; rewrite e.
by move=> r pr; have [r' qr' le] := lo r pr; apply: leq_trans le; apply: m.
Qed.

Lemma is_distE m (H : mat) d : is_dist m H d <-> ((exists2 r, nzw m H r & hwt r = d) /\ (forall r, nzw m H r -> (d <= hwt r)%N)).
Proof.
by split=> -[[r]]; [case=> [w nz e m0] | case=> [w nz] e m0]; split; [exists r | move=> r' []; apply: m0 | exists r | move=> r' w' nz'; apply: m0].
Qed.

Lemma shp_dist_x k d : has_dim n1 A k -> (0 < k)%N ->
  is_tdist true n (css_mat n (shp_x n2 A) (shp_z n1 B)) d <-> is_dist n2 B d.
Proof.
move=> hk k0; rewrite is_tdistE ?wf_shp_x ?wf_shp_z // is_distE; apply: min_iff; first exact: x_lower.
by move=> r; apply: x_upper hk k0.
Qed.

Lemma shp_dist_z k d : has_dim n2 B k -> (0 < k)%N ->
  is_tdist false n (css_mat n (shp_x n2 A) (shp_z n1 B)) d <-> is_dist n1 A d.
Proof.
move=> hk k0; rewrite is_tdistE ?wf_shp_x ?wf_shp_z // is_distE; apply: min_iff; first exact: z_lower.
by move=> r; apply: z_upper hk k0.
Qed.
End Sides.

Lemma words_sp n (A A' : mat) : (forall w, is_word n A w <-> is_word n A' w) -> (sp n A :=: sp n A')%MS.
Proof.
move=> h; apply: eqmx_trans (orth_orth _) _; apply: eqmx_sym; apply: eqmx_trans (orth_orth _) _.
have e : (kermx (sp n A')^T :=: kermx (sp n A)^T)%MS.
  apply/eqmxP/rV_eqP => u; have su := size_lrv u.
  apply/sub_kermxP/sub_kermxP => e; have := h (lrv u); rewrite !is_wordE // rv_lrv => -[h1 h2]; [exact: h2 | exact: h1].
apply/eqmxP; apply/andP; split; apply/sub_kermxP.
  have /submxP [D ->] : (kermx (sp n A)^T <= kermx (sp n A')^T)%MS by rewrite e.
  by rewrite (trmx_mul D) mulmxA mulmx_ker mul0mx.
have /submxP [D ->] : (kermx (sp n A')^T <= kermx (sp n A)^T)%MS by rewrite e.
by rewrite (trmx_mul D) mulmxA mulmx_ker mul0mx.
Qed.

Lemma words_n n n' (A A' : mat) : (forall w, is_word n A w <-> is_word n' A' w) -> n = n'.
Proof.
move=> h; have : is_word n A (nseq n 0).
  apply/is_wordE; rewrite ?size_nseq //; have -> : rv n (nseq n 0) = 0 :> 'rV[F]_n; last by rewrite mul0mx.
  by apply/rowP => j; rewrite !mxE nth_nseq if_same.
by move/h => [<- _]; rewrite size_nseq.
Qed.

Lemma shp_words n1 n1' n2 n2' (A A' B B' : mat) : wf n1 A -> wf n1' A' -> wf n2 B -> wf n2' B' ->
  (forall w, is_word n1 A w <-> is_word n1' A' w) -> (forall w, is_word n2 B w <-> is_word n2' B' w) ->
  let (n, n') := ((n1 * n2)%N, (n1' * n2')%N) in n = n' /\
  forall v, span (n + n) (css_mat n (shp_x n2 A) (shp_z n1 B)) v <-> span (n' + n') (css_mat n' (shp_x n2' A') (shp_z n1' B')) v.
Proof.
move=> wA wA' wB wB' hA hB; have e1 := words_n hA; have e2 := words_n hB; subst n1' n2'; split=> //; apply/span_eqmx.
apply: eqmx_trans (sp_css (wf_shp_x _ wA) (wf_shp_z _ wB)) _; apply: eqmx_sym.
apply: eqmx_trans (sp_css (wf_shp_x _ wA') (wf_shp_z _ wB')) _; have eA := words_sp hA; have eB := words_sp hB.
apply: block_eqmx; apply/eqmxP/rV_eqP => u; first by rewrite !in_x // eA.
by rewrite !in_z // eB.
Qed.
End Dist.
