(* Logical operators of CSS codes computed from the standard form. *)
From mathcomp Require Import all_ssreflect all_algebra zify.
From Verif Require Import LinAlg RowReduce Classical ClassicalProofs ClassicalProofs2 Symplectic Quantum QuantumProofs
  QuantumPerm QuantumStab QuantumLogs Css CssForm.
Set Implicit Arguments.
Unset Strict Implicit.
Unset Printing Implicit Defensive.
Import GRing.Theory.
Local Open Scope ring_scope.

Section Logs.
Variable F : fieldType.
Notation vec := (seq F).
Notation mat := (seq (seq F)).

(* matrix inversion *)
Lemma inv_mat_ok k (A : mat) : size A = k -> wf k A -> mx k k A \in unitmx ->
  exists B, [/\ inv_mat k A = Some B, size B = k, wf k B & mx k k B = invmx (mx k k A)].
Proof.
move=> sA wA uA; rewrite /inv_mat.
have sH : size (hcat A (idl F k)) = k by rewrite size_hcat ?size_idl.
have wH : wf (k + k) (hcat A (idl F k)) by rewrite wf_hcat ?wf_idl.
have mH : mx k (k + k) (hcat A (idl F k)) = row_mx (mx k k A) 1%:M by rewrite mx_hcat ?size_idl ?mx_idl.
have eH : (sp (k + k) (hcat A (idl F k)) :=: row_mx 1%:M (invmx (mx k k A)))%MS.
  apply: eqmx_trans (sp_mx _ sH) _; rewrite mH.
  have -> : row_mx (mx k k A) 1%:M = mx k k A *m row_mx 1%:M (invmx (mx k k A)).
    by rewrite mul_mx_row mulmx1 mulmxV.
  by apply: eqmxMfull; rewrite row_full_unit.
have rk : \rank (sp (k + k) (hcat A (idl F k))) = k.
  rewrite eH; apply/eqP; rewrite -/(row_free _); apply/row_freeP; exists (col_mx 1%:M 0).
  by rewrite mul_row_col mulmx1 mulmx0 addr0.
have -> : row_reduce (k + k) (hcat A (idl F k)) = canon (k + k) (hcat A (idl F k)).
  by rewrite row_reduce_canon // size_canon // rk sH subnn cats0.
have rR := canon_rref wH; have eR := eqmx_trans (sp_canon wH) eH; have wR := wf_canon wH; have sR := size_canon wH.
rewrite rk in sR; set R := canon _ _ in rR eR wR sR *.
have [_ hR] : (k <= size R)%N /\ forall i j, (i < size R)%N -> (j < k)%N -> ent R i j = (i == j)%:R.
  apply: (rref_prefix rR (_ : row_mx 1%:M (invmx (mx k k A)) <= _)%MS); rewrite ?eR ?leq_addr // => i j lj.
  have -> : j = lshift k (Ordinal lj) by apply: val_inj.
  by rewrite row_mxEl mxE.
have eX : x_part k R = idl F k.
  apply: (@mat_ext _ k k); rewrite ?size_x_part ?size_idl ?wf_x_part ?wf_idl //.
  by move=> i j li lj; rewrite ent_x_part // hR ?sR // ent_mkmat.
rewrite eX eqxx; eexists; split; [by [] | by rewrite size_z_part | exact: wf_z_part |].
have mR : mx k (k + k) R = row_mx 1%:M (mx k k (z_part k R)) by rewrite mx_parts // eX mx_idl.
have : (mx k (k + k) R <= row_mx 1%:M (invmx (mx k k A)))%MS by rewrite -(sp_mx _ sR) eR.
rewrite mR => /submxP [D]; rewrite mul_mx_row mulmx1 => /eq_row_mx [<-].
by rewrite mul1mx.
Qed.

(* the remaining entries of the logical operators are fixed by the stabilizers *)
Lemma css_fill n l sx sz gx gz k (MX MZ xx0 zz0 : mat) (U0 W0 : 'M[F]_(l, k)) :
  n = (l + (sx + sz))%N -> size MX = (sx + gx)%N -> wf n MX -> size MZ = (sz + gz)%N -> wf n MZ ->
  (forall i j, (i < sx)%N -> (j < sx)%N -> ent MX i (l + j) = (i == j)%:R) ->
  (forall i j, (i < gx)%N -> (j < sx)%N -> ent MX (sx + i) (l + j) = 0) ->
  (forall i j, (i < sz)%N -> (j < sz)%N -> ent MZ i (l + sx + j) = (i == j)%:R) ->
  (forall i j, (i < gz)%N -> (j < sz)%N -> ent MZ (sz + i) (l + sx + j) = 0) ->
  size xx0 = n -> size zz0 = n -> wf k xx0 -> wf k zz0 ->
  (forall i j, (j < k)%N -> ent xx0 (l + i) j = 0) -> (forall i j, (j < k)%N -> ent zz0 (l + i) j = 0) ->
  mx l k xx0 = U0 -> mx l k zz0 = W0 ->
  mx gz l (drop sz MZ) *m U0 = 0 -> mx gx l (drop sx MX) *m W0 = 0 -> U0^T *m W0 = 1%:M ->
  let xx := assign (iota (l + sx) sz) (mull k (mopp (selrows (iota 0 sz) MZ)) xx0) xx0 in
  let zz := assign (iota l sx) (mull k (mopp (selrows (iota 0 sx) MX)) zz0) zz0 in
  [/\ mx (sz + gz) n MZ *m mx n k xx = 0, mx (sx + gx) n MX *m mx n k zz = 0 & (mx n k xx)^T *m mx n k zz = 1%:M].
Proof.
move=> en sX wX sZ wZ x1 x2 z1 z2 sxx szz wxx wzz h0 h0' eU eW hU hW hUW.
have [s1 w1 e1] := mx_sel_rows sZ (leq_addr _ _ : 0 + sz <= sz + gz)%N wZ.
have [s2 w2 e2] := mx_sel_rows sX (leq_addr _ _ : 0 + sx <= sx + gx)%N wX.
set Sz := selrows _ MZ in s1 w1 e1 *; set Sx := selrows _ MX in s2 w2 e2 *.
have m1 : mx sz k (mull k (mopp Sz) xx0) = - mx sz n Sz *m mx n k xx0.
  by rewrite (@mx_mull _ sz n) ?size_mopp ?wf_mopp // mx_mopp.
have m2 : mx sx k (mull k (mopp Sx) zz0) = - mx sx n Sx *m mx n k zz0.
  by rewrite (@mx_mull _ sx n) ?size_mopp ?wf_mopp // mx_mopp.
set Q1 := mull k (mopp Sz) xx0 in m1 *; set Q2 := mull k (mopp Sx) zz0 in m2 *.
subst n => /=.
have f1 : mx (l + (sx + sz)) k xx0 = col_mx U0 (col_mx 0 0).
  apply/matrixP => i j; rewrite !mxE; case: split_ordP => i1 -> /=; rewrite ?mxE -?eU ?mxE //=.
  by rewrite h0 //; case: split => i2; rewrite mxE.
have f2 : mx (l + (sx + sz)) k zz0 = col_mx W0 (col_mx 0 0).
  apply/matrixP => i j; rewrite !mxE; case: split_ordP => i1 -> /=; rewrite ?mxE -?eW ?mxE //=.
  by rewrite h0' //; case: split => i2; rewrite mxE.
rewrite (mx_assign3 _ sxx f1) (mx_assign2 _ szz f2) m1 m2 f1 f2.
have gX : mx (sx + gx) (l + (sx + sz)) MX = col_mx (mx sx _ Sx) (mx gx _ (drop sx MX)).
  apply/matrixP => i j; rewrite !mxE; case: split_ordP => i1 -> /=; rewrite mxE ?e2 ?ent_drop //.
have gZ : mx (sz + gz) (l + (sx + sz)) MZ = col_mx (mx sz _ Sz) (mx gz _ (drop sz MZ)).
  apply/matrixP => i j; rewrite !mxE; case: split_ordP => i1 -> /=; rewrite mxE ?e1 ?ent_drop //.
rewrite gX gZ; clear gX gZ.
set X := mx sx _ Sx; set Z := mx sz _ Sz; set X' := mx gx _ (drop sx MX); set Z' := mx gz _ (drop sz MZ).
have eX : X = row_mx (lsubmx X) (row_mx 1%:M (rsubmx (rsubmx X))).
  rewrite -[LHS]hsubmxK; congr row_mx; rewrite -[LHS]hsubmxK; congr row_mx.
  by apply/matrixP => i j; rewrite !mxE /= e2 // add0n x1.
have eZ : Z = row_mx (lsubmx Z) (row_mx (lsubmx (rsubmx Z)) 1%:M).
  rewrite -[LHS]hsubmxK; congr row_mx; rewrite -[LHS]hsubmxK; congr row_mx.
  by apply/matrixP => i j; rewrite !mxE /= e1 // add0n addnA z1.
have eX' : X' = row_mx (mx gx l (drop sx MX)) (row_mx 0 (rsubmx (rsubmx X'))).
  rewrite -[LHS]hsubmxK; congr row_mx; first by apply/matrixP => i j; rewrite !mxE.
  rewrite -[LHS]hsubmxK; congr row_mx; apply/matrixP => i j; rewrite !mxE /= ent_drop x2 //.
have eZ' : Z' = row_mx (mx gz l (drop sz MZ)) (row_mx (lsubmx (rsubmx Z')) 0).
  rewrite -[LHS]hsubmxK; congr row_mx; first by apply/matrixP => i j; rewrite !mxE.
  rewrite -[LHS]hsubmxK; congr row_mx; apply/matrixP => i j; rewrite !mxE /= addnA ent_drop z2 //.
rewrite eX eZ eX' eZ'; clear eX eZ eX' eZ' m1 m2 f1 f2 x1 x2 z1 z2 eU eW.
move: hU hW; move: (lsubmx X) (rsubmx (rsubmx X)) (lsubmx Z) (lsubmx (rsubmx Z)) (rsubmx (rsubmx X')) (lsubmx (rsubmx Z')).
move: (mx gx l _) (mx gz l _) => B B' A1 A2 C1 C2 D D' hU hW; clear -hU hW hUW.
rewrite !mul_col_mx !opp_row_mx !mul_row_col !mulmx0 !addr0 !mul1mx !mul0mx ?addr0 ?add0r hU hW.
by rewrite !mulNmx !subrr !col_mx0 tr_col_mx mul_row_col hUW tr_col_mx mul_row_col trmx0 mul0mx mulmx0 !addr0.
Qed.

(* the inverse permutation of the qudits *)
Lemma mx_unpermute n k p (A : mat) : perm_eq p (iota 0 n) -> size A = n -> wf k A ->
  [/\ size (trl k (selrows (argsort p) A)) = k, wf n (trl k (selrows (argsort p) A))
    & mx k n (trl k (selrows (argsort p) A)) = (mx n k A)^T *m (selmx F n n p)^T].
Proof.
move=> pe sA wA; have pa := argsort_perm pe; have sa : size (argsort p) = n by rewrite (perm_size pa) size_iota.
have ss : size (selrows (argsort p) A) = n by rewrite size_selrows.
split; rewrite ?size_trl //; first by rewrite -{1}ss wf_trl.
rewrite mx_trl // -trmx_mul; congr trmx; apply/matrixP => i j; rewrite !mxE ent_selrows ?sa //.
rewrite (bigD1 (Ordinal (perm_iota_lt pa (ltn_ord i)))) //= !mxE /= (nth_argsort pe) // eqxx mul1r big1 ?addr0 // => t ne.
rewrite !mxE (_ : (_ == _) = false) ?mul0r //; apply/negbTE; apply: contra ne => /eqP e.
by apply/eqP/val_inj; rewrite /= e (argsort_nth pe).
Qed.

(* in the invariants below X and Z are the checks and lx, lz the logical operators (n columns) *)
Definition css_dual (n k : nat) (X Z lx lz : mat) : Prop :=
  [/\ size lx = k /\ size lz = k, wf n lx /\ wf n lz, mx k n lx *m (sp n Z)^T = 0, mx k n lz *m (sp n X)^T = 0
    & mx k n lx *m (mx k n lz)^T = 1%:M].

Lemma css_finish n k p m1 m2 (X Z MX MZ xx zz : mat) : perm_eq p (iota 0 n) -> wf n X -> wf n Z ->
  size MX = m1 -> size MZ = m2 ->
  (sp n MX :=: sp n (selcols p X))%MS -> (sp n MZ :=: sp n (selcols p Z))%MS ->
  size xx = n -> wf k xx -> size zz = n -> wf k zz ->
  mx m2 n MZ *m mx n k xx = 0 -> mx m1 n MX *m mx n k zz = 0 -> (mx n k xx)^T *m mx n k zz = 1%:M ->
  css_dual n k X Z (trl k (selrows (argsort p) xx)) (trl k (selrows (argsort p) zz)).
Proof.
move=> pe wX wZ sX sZ eX eZ sxx wxx szz wzz k1 k2 k3.
have [s1 w1 m1'] := mx_unpermute pe sxx wxx; have [s2 w2 m2'] := mx_unpermute pe szz wzz.
have gen m (A M a : mat) : wf n A -> size M = m -> (sp n M :=: sp n (selcols p A))%MS -> mx m n M *m mx n k a = 0 ->
    (mx n k a)^T *m (selmx F n n p)^T *m (sp n A)^T = 0.
  move=> wA sM eM h; rewrite -mulmxA -trmx_mul -(mx_selp pe) // -trmx_mul -[RHS]trmx0; congr trmx.
  have : (mx (size A) n (selcols p A) <= mx m n M)%MS.
    by rewrite -(sp_mx _ sM) eM (sp_mx _ (size_selcols p A)).
  by case/submxP => D ->; rewrite -mulmxA h mulmx0.
split=> //; rewrite ?m1' ?m2'.
- exact: gen k1.
- exact: gen k2.
rewrite trmx_mul !trmxK mulmxA -[(mx n k xx)^T *m _ *m _]mulmxA.
have -> : (selmx F n n p)^T *m selmx F n n p = 1%:M by apply: mulmx1C; exact: selmx_tr.
by rewrite mulmx1.
Qed.

(* ------------------------------------------------------------------ stabilizer codes *)
Lemma css_stab_logicals n k (X Z : mat) : wf n X -> wf n Z -> sp n X *m (sp n Z)^T = 0 ->
  k = (n - (\rank (sp n X) + \rank (sp n Z)))%N ->
  exists lx lz, css_logicals n k false (css_stab_form n X Z) = Some (lx, lz) /\ css_dual n k X Z lx lz.
Proof.
move=> wX wZ c0 ek; have := css_stab_form_ok wX wZ c0 => /=.
set sx := \rank (sp n X) in ek *; set sz := \rank (sp n Z) in ek *.
have -> : (n - sx - sz)%N = k by rewrite ek subnDA.
set f := css_stab_form n X Z; clearbody f sx sz.
case=> en ef pl [sX wX' eX x1] [sZ wZ' eZ z1].
rewrite /css_logicals ef /= !size_iota eqxx /=; do 2 eexists; split; first by [].
have szero : size (zerol F n k) = n by rewrite size_zerol.
set xx0 := assign (iota 0 k) (idl F k) (zerol F n k).
have sxx0 : size xx0 = n by rewrite size_assign.
have wxx0 : wf k xx0 by rewrite wf_assign ?wf_idl ?wf_zerol ?size_idl.
have z0 i j : (j < k)%N -> ent xx0 (k + i) j = 0.
  move=> lj; have [lt | ge] := ltnP (k + i) n; last by rewrite ent_default_row // sxx0.
  by rewrite ent_assign ?szero // add0n /= ltnNge leq_addr /= ent_zerol.
have mU : mx k k xx0 = 1%:M.
  by apply/matrixP => i j; rewrite !mxE ent_assign ?szero /= ?add0n ?ltn_ord ?subn0 ?ent_mkmat //; have := ltn_ord i; lia.
have sX' : size (cf_x f) = (sx + 0)%N by rewrite addn0.
have sZ' : size (cf_z f) = (sz + 0)%N by rewrite addn0.
have n0 (A : mat) m (D : 'M[F]_(k, m)) : mx 0 k A *m D = 0 by apply/matrixP => -[].
have one : (1%:M : 'M[F]_k)^T *m 1%:M = 1%:M by rewrite trmx1 mulmx1.
have [|| k1 k2 k3] := css_fill en sX' wX' sZ' wZ' x1 _ z1 _ sxx0 sxx0 wxx0 wxx0 z0 z0 mU mU (n0 _ _ _) (n0 _ _ _) one => //.
apply: (css_finish pl wX wZ _ _ eX eZ _ _ _ _ k1 k2 k3); rewrite ?size_assign ?addn0 //.
  rewrite wf_assign ?wf_mull // size_mull size_mopp size_selrows size_iota //.
rewrite wf_assign ?wf_mull // size_mull size_mopp size_selrows size_iota //.
Qed.

(* ------------------------------------------------------------------- subsystem codes *)
Lemma span_split n s g o (M st : mat) : size M = (s + g)%N -> size st = s ->
  (o + s <= n)%N ->
  (forall i j, (i < s)%N -> (j < s)%N -> ent M i (o + j) = (i == j)%:R) ->
  (forall i j, (i < g)%N -> (j < s)%N -> ent M (s + i) (o + j) = 0) ->
  (forall i j, (i < s)%N -> (j < s)%N -> ent st i (o + j) = (i == j)%:R) ->
  (sp n st <= sp n M)%MS -> (sp n M :=: mx s n st + mx g n (drop s M))%MS.
Proof.
move=> sM sst on h1 h2 h3 sub.
have mM : mx (s + g) n M = col_mx (mx s n M) (mx g n (drop s M)).
  by apply/matrixP => i j; rewrite !mxE; case: split_ordP => i1 ->; rewrite mxE ?ent_drop.
pose E := selmx F n s (iota o s).
have sel m (A : 'M[F]_(m, n)) i (j : 'I_s) : exists2 t : 'I_n, nat_of_ord t = (o + j)%N & (A *m E) i j = A i t.
  have lt : (o + j < n)%N by apply: leq_trans on; rewrite ltn_add2l.
  by exists (Ordinal lt) => //; apply: mulmx_selmx; rewrite nth_iota.
have eT : mx s n M *m E = 1%:M by apply/matrixP => i j; have [t et ->] := sel _ (mx s n M) i j; rewrite !mxE et h1.
have eD : mx g n (drop s M) *m E = 0.
  by apply/matrixP => i j; have [t et ->] := sel _ (mx g n (drop s M)) i j; rewrite !mxE et ent_drop h2.
have eS : mx s n st *m E = 1%:M by apply/matrixP => i j; have [t et ->] := sel _ (mx s n st) i j; rewrite !mxE et h3.
apply: eqmx_trans (sp_mx _ sM) _; rewrite mM.
have : (mx s n st <= col_mx (mx s n M) (mx g n (drop s M)))%MS by rewrite -mM -(sp_mx _ sM) -(sp_mx _ sst).
case/submxP => D; rewrite -[D]hsubmxK mul_row_col; move: (lsubmx D) (rsubmx D) => a b e.
have ea : a = 1%:M by rewrite -eS e mulmxDl -!mulmxA eT eD mulmx1 mulmx0 addr0.
move: e; rewrite ea mul1mx => ->.
apply: eqmx_trans (eqmx_sym (addsmxE _ _)) _.
apply/eqmxP; rewrite !addsmx_sub !addsmxSr !andbT; apply/andP; split.
  by rewrite -{1}[mx s n M](addrK (b *m mx g n (drop s M))) addmx_sub_adds // eqmx_opp submxMl.
by rewrite addmx_sub_adds // submxMl.
Qed.

Lemma rank_pairing a b s d t e n (A : 'M[F]_(a, n)) (B : 'M[F]_(b, n)) (S : 'M[F]_(s, n)) (D : 'M[F]_(d, n))
    (T : 'M[F]_(t, n)) (E : 'M[F]_(e, n)) :
  (A :=: S + D)%MS -> (B :=: T + E)%MS -> S *m B^T = 0 -> A *m T^T = 0 -> \rank (A *m B^T) = \rank (D *m E^T).
Proof.
move=> eA eB h1 h2; have -> : \rank (A *m B^T) = \rank (D *m B^T).
  by rewrite (eqmxMr _ eA) addsmxMr h1 adds0mx.
have -> : \rank (D *m B^T) = \rank (B *m D^T) by rewrite -[LHS]mxrank_tr trmx_mul trmxK.
rewrite (eqmxMr _ eB) addsmxMr.
have -> : T *m D^T = 0.
  apply: trmx_inj; rewrite trmx_mul trmxK trmx0.
  have /submxP [u ->] : (D <= A)%MS by rewrite eA addsmxSr.
  by rewrite -mulmxA h2 mulmx0.
by rewrite adds0mx -[LHS]mxrank_tr trmx_mul trmxK.
Qed.

Lemma gl_pairing n l sx sz g (DX DZ : mat) : n = (l + (sx + sz))%N ->
  (forall i j, (i < g)%N -> (j < sx)%N -> ent DX i (l + j) = 0) ->
  (forall i j, (i < g)%N -> (j < sz)%N -> ent DZ i (l + sx + j) = 0) ->
  mx g n DX *m (mx g n DZ)^T = mx g l DX *m (mx g l DZ)^T.
Proof.
move=> -> hx hz; have e (A : mat) : mx g (l + (sx + sz)) A =
    row_mx (mx g l A) (row_mx (\matrix_(i, j) ent A i (l + j)) (\matrix_(i, j) ent A i (l + sx + j))).
  apply/matrixP => i j; rewrite !mxE; case: split_ordP => j1 ->; rewrite !mxE //=.
  by case: split_ordP => j2 ->; rewrite !mxE //= addnA.
rewrite !e; set a := (\matrix_(i, j) _ : 'M[F]_(g, sx)); have -> : a = 0 by apply/matrixP => i j; rewrite !mxE hx.
set b := (\matrix_(i, j) ent DZ i (l + sx + j)); have -> : b = 0 by apply/matrixP => i j; rewrite !mxE hz.
by rewrite !tr_row_mx !mul_row_col trmx0 mul0mx mulmx0 !addr0.
Qed.

Lemma seeds_unit l g k (B B' : 'M[F]_(g, l)) (U W : 'M[F]_(k, l)) : B *m B'^T \in unitmx -> (l = k + g)%N ->
  (U :=: kermx B'^T)%MS -> (W :=: kermx B^T)%MS -> row_free U -> row_free W -> U *m W^T \in unitmx.
Proof.
move=> uB el eU eW fU fW; rewrite -row_free_unit -kermx_eq0; apply/eqP/row_matrixP => i; rewrite row0.
set y := row i _; have : y *m (U *m W^T) = 0 by rewrite /y -row_mul mulmx_ker row0.
have WB : W *m B^T = 0 by apply/sub_kermxP; rewrite eW.
have UB : U *m B'^T = 0 by apply/sub_kermxP; rewrite eU.
have fB : row_free B.
  rewrite /row_free eqn_leq rank_leq_row /=; move: uB; rewrite -row_free_unit => /eqP {1}<-.
  exact: mxrankM_maxl.
have eB : (B :=: kermx W^T)%MS.
  apply/eqmxP; have sB : (B <= kermx W^T)%MS by apply/sub_kermxP; rewrite -[LHS]trmxK trmx_mul trmxK WB trmx0.
  rewrite sB -(geq_leqif (mxrank_leqif_sup sB)) mxrank_ker mxrank_tr.
  by move/eqP: fB => ->; move/eqP: fW => ->; move: el; clear; lia.
rewrite mulmxA => /sub_kermxP; rewrite -eB => /submxP [t e].
have t0 : t = 0.
  have : t *m (B *m B'^T) = 0 by rewrite mulmxA -e -mulmxA UB mulmx0.
  by move/(congr1 (mulmx^~ (invmx (B *m B'^T)))); rewrite -mulmxA mulmxV // mulmx1 mul0mx.
by apply: (row_free_inj fU); rewrite e t0 !mul0mx.
Qed.

Lemma seed_ok n l k (Q : mat) : (l <= n)%N -> size Q = l -> wf k Q ->
  let s := assign (iota 0 l) Q (zerol F n k) in
  [/\ size s = n, wf k s, forall i j, (j < k)%N -> ent s (l + i) j = 0 & mx l k s = mx l k Q].
Proof.
move=> ln sQ wQ; have szero : size (zerol F n k) = n by rewrite size_zerol.
split; rewrite ?size_assign ?wf_assign ?wf_zerol //.
  move=> i j lj; have [lt | ge] := ltnP (l + i) n; last by rewrite ent_default_row // size_assign szero.
  by rewrite ent_assign ?szero // add0n /= ltnNge leq_addr /= ent_zerol.
apply/matrixP => i j; rewrite !mxE ent_assign ?szero /= ?add0n ?ltn_ord ?subn0 //.
exact: leq_trans (ltn_ord i) ln.
Qed.

Lemma gl_cols n l (piv : seq nat) : (l <= n)%N -> all (fun p => p < l)%N piv ->
  let cg := [seq nth 0%N (iota 0 l) p | p <- piv] in
  [seq q <- iota 0 n | q \in cg ++ [seq q <- iota 0 l | q \notin cg]] = iota 0 l.
Proof.
move=> ln ap cg; rewrite -{1}(subnKC ln) iotaD filter_cat add0n.
have -> : [seq q <- iota l (n - l) | q \in cg ++ [seq q <- iota 0 l | q \notin cg]] = [::].
  apply/eqP; rewrite -[_ == _]negbK -has_filter; apply/hasPn => q; rewrite mem_iota => /andP [ge _].
  rewrite mem_cat mem_filter mem_iota /= ltnNge ge andbF orbF; apply/negP => /mapP [p pp e].
  by move/allP: ap => /(_ _ pp) lp; move: ge; rewrite e nth_iota // add0n leqNgt lp.
rewrite cats0; apply/all_filterP/allP => q qi; rewrite mem_cat mem_filter qi andbT; exact: orbN.
Qed.

Lemma css_sub_logicals n (X Z Sx Sz : mat) g k : wf n X -> wf n Z -> wf n Sx -> wf n Sz ->
  (sp n Sx :=: sp n X :&: kermx (sp n Z)^T)%MS -> (sp n Sz :=: sp n Z :&: kermx (sp n X)^T)%MS ->
  g = \rank (sp n X *m (sp n Z)^T) -> n = (k + g + (\rank (sp n Sx) + \rank (sp n Sz)))%N ->
  exists f lx lz, [/\ css_sub_form n X Z Sx Sz g = Some f, css_logicals n k true f = Some (lx, lz) & css_dual n k X Z lx lz].
Proof.
move=> wX wZ wSx wSz eSx eSz eg en0.
have rk1 : (\rank (sp n X) = \rank (sp n Sx) + g)%N by rewrite eSx eg addnC mxrank_mul_ker.
have rk2 : (\rank (sp n Z) = \rank (sp n Sz) + g)%N.
  rewrite eSz eg addnC -[RHS]addnC -(mxrank_mul_ker (sp n Z) (sp n X)^T) addnC; congr (_ + _)%N.
  by rewrite -[LHS]mxrank_tr trmx_mul trmxK.
have oX : sp n Sx *m (sp n Z)^T = 0 by apply/sub_kermxP; rewrite eSx capmxSr.
have oZ : sp n Sz *m (sp n X)^T = 0 by apply/sub_kermxP; rewrite eSz capmxSr.
have lX : (sp n Sx <= sp n X)%MS by rewrite eSx capmxSl.
have lZ : (sp n Sz <= sp n Z)%MS by rewrite eSz capmxSl.
have c0 : sp n Sx *m (sp n Sz)^T = 0 by apply: (orth_eqmx (submx_refl _) lZ oX).
have := css_stab_form_ok wSx wSz c0 => /=; rewrite /css_sub_form.
set f := css_stab_form n Sx Sz.
set sx := \rank (sp n Sx) in rk1 en0 *; set sz := \rank (sp n Sz) in rk2 en0 *.
set l := (n - sx - sz)%N; have el : l = (k + g)%N by rewrite /l en0; clear; lia.
clearbody f sx sz l; case=> en ef pl [sfx wfx efx x1] [sfz wfz efz z1].
have ln : (l <= n)%N by rewrite en leq_addr.
have [ecsx ecsz ecl] : [/\ cf_csx f = iota l sx, cf_csz f = iota (l + sx) sz & cf_clz f = iota 0 l] by rewrite ef.
rewrite ecsx ecsz ecl sfx sfz; clear ef.
have px : perm_eq (iota l sx ++ iota 0 l ++ iota (l + sx) sz) (iota 0 n).
  by rewrite en !iotaD add0n perm_catCA.
have pz : perm_eq (iota (l + sx) sz ++ iota 0 l ++ iota l sx) (iota 0 n).
  by rewrite en !iotaD add0n perm_catC -catA.
have wcx : wf n (selcols (cf_locs f) (canon n X)) by exact: wf_selp.
have wcz : wf n (selcols (cf_locs f) (canon n Z)) by exact: wf_selp.
have spc (S C st : mat) : wf n S -> wf n C -> (sp n S <= sp n C)%MS -> (sp n st :=: sp n (selcols (cf_locs f) S))%MS ->
    (sp n (st ++ selcols (cf_locs f) (canon n C)) :=: sp n (selcols (cf_locs f) C))%MS.
  move=> wS wC sub e; apply: eqmx_trans (sp_cat _ _ _) _; apply: eqmx_trans (eqmx_sym (addsmxE _ _)) _.
  have e1 : (sp n (selcols (cf_locs f) (canon n C)) :=: sp n (selcols (cf_locs f) C))%MS.
    apply: eqmx_trans (sp_selp pl (wf_canon wC)) _; apply: eqmx_trans _ (eqmx_sym (sp_selp pl wC)).
    exact: eqmxMr (sp_canon wC).
  apply: eqmx_trans (adds_eqmx e e1) _; apply/addsmx_idPr.
  by rewrite !(sp_selp pl) // submxMr.
have aX := spc _ _ _ wSx wX lX efx; have aZ := spc _ _ _ wSz wZ lZ efz.
have [nx1 nx2] : (forall j, (j < sx)%N -> nth 0%N (iota l sx ++ iota 0 l ++ iota (l + sx) sz) j = (l + j)%N) /\
                 (forall j, (j < l)%N -> nth 0%N (iota l sx ++ iota 0 l ++ iota (l + sx) sz) (sx + j) = j).
  split=> j lj; rewrite nth_cat size_iota; first by rewrite lj nth_iota.
  by rewrite ltnNge leq_addr /= addKn nth_cat size_iota lj nth_iota.
have [nz1 nz2] : (forall j, (j < sz)%N -> nth 0%N (iota (l + sx) sz ++ iota 0 l ++ iota l sx) j = (l + sx + j)%N) /\
                 (forall j, (j < l)%N -> nth 0%N (iota (l + sx) sz ++ iota 0 l ++ iota l sx) (sz + j) = j).
  split=> j lj; rewrite nth_cat size_iota; first by rewrite lj nth_iota.
  by rewrite ltnNge leq_addr /= addKn nth_cat size_iota lj nth_iota.
have bx : (sx + l <= n)%N by rewrite en; clear; lia.
have bz : (sz + l <= n)%N by rewrite en; clear; lia.
case eqx: (css_sector n (cf_x f) _ _) => [MX pgx]; case eqz: (css_sector n (cf_z f) _ _) => [MZ pgz].
have := css_sector_ok px sfx wfx wcx bx nx1 nx2 x1 eqx; have := css_sector_ok pz sfz wfz wcz bz nz1 nz2 z1 eqz.
rewrite aX aZ !rank_selp // rk1 rk2 => -[sMZ wMZ eMZ [_ spz] [z2 z3 z4]] [sMX wMX eMX [_ spx] [x2 x3 x4]].
have eMX' := eqmx_trans eMX aX; have eMZ' := eqmx_trans eMZ aZ.
rewrite sMX in x3 x4 spx; rewrite sMZ in z3 z4 spz; rewrite addKn in x4 spx; rewrite addKn in z4 spz.
have {}x3 i j : (i < g)%N -> (j < sx)%N -> ent MX (sx + i) (l + j) = 0.
  by move=> li lj; apply: x3 => //; rewrite leq_addr ltn_add2l.
have {}z3 i j : (i < g)%N -> (j < sz)%N -> ent MZ (sz + i) (l + sx + j) = 0.
  by move=> li lj; apply: z3 => //; rewrite leq_addr ltn_add2l.
(* the pairing of gauge rows is nondegenerate *)
set B := mx g l (drop sx MX); set B' := mx g l (drop sz MZ).
have uB : B *m B'^T \in unitmx.
  rewrite -row_free_unit /row_free /B /B' -(gl_pairing (n := n) (sx := sx) (sz := sz)) //; first last.
  - by move=> i j li lj; rewrite ent_drop z3.
  - by move=> i j li lj; rewrite ent_drop x3.
  have ox : (l + sx <= n)%N by rewrite en; clear; lia.
  have oz : (l + sx + sz <= n)%N by rewrite en; clear; lia.
  have sX : (sp n (cf_x f) <= sp n MX)%MS by rewrite eMX sp_cat -addsmxE addsmxSl.
  have sZ : (sp n (cf_z f) <= sp n MZ)%MS by rewrite eMZ sp_cat -addsmxE addsmxSl.
  have cX := span_split sMX sfx ox x2 x3 x1 sX; have cZ := span_split sMZ sfz oz z2 z3 z1 sZ.
  have pr (A C S D : mat) : wf n A -> wf n C -> (sp n S :=: sp n (selcols (cf_locs f) A))%MS ->
      (sp n D :=: sp n (selcols (cf_locs f) C))%MS -> \rank (sp n S *m (sp n D)^T) = \rank (sp n A *m (sp n C)^T).
    move=> wA wC eS eD.
    rewrite (eqmxMr _ eS) -[LHS]mxrank_tr trmx_mul trmxK (eqmxMr _ eD) -[LHS]mxrank_tr trmx_mul trmxK.
    have -> : sp n A *m (sp n C)^T = mx (size A) n A *m (mx (size C) n C)^T by [].
    rewrite -(prod_selp pl) //.
    rewrite (eqmxMr _ (sp_mx _ (size_selcols _ A))) -[LHS]mxrank_tr trmx_mul trmxK.
    by rewrite (eqmxMr _ (sp_mx _ (size_selcols _ C))) -[LHS]mxrank_tr trmx_mul trmxK.
  have r0 m1 m2 (A : 'M[F]_(m1, m2)) : \rank A = 0%N -> A = 0 by move/eqP; rewrite mxrank_eq0 => /eqP.
  apply/eqP; rewrite -(rank_pairing cX cZ).
  - by rewrite (pr X Z) // eg.
  - have := pr Sx Z (cf_x f) MZ wSx wZ efx eMZ'; rewrite oX mxrank0 => /r0 h.
    by apply: (orth_eqmx _ (submx_refl _) h); rewrite -(sp_mx _ sfx).
  have := pr X Sz MX (cf_z f) wX wSz eMX' efz.
  have -> : sp n X *m (sp n Sz)^T = 0 by apply: trmx_inj; rewrite trmx_mul trmxK oZ trmx0.
  rewrite mxrank0 => /r0 h.
  by apply: (orth_eqmx (submx_refl _) _ h); rewrite -(sp_mx _ sfz).
have fB : row_free B.
  rewrite /row_free eqn_leq rank_leq_row /=; move: uB; rewrite -row_free_unit => /eqP {1}<-.
  exact: mxrankM_maxl.
have fB' : row_free B'.
  rewrite /row_free eqn_leq rank_leq_row /=; move: uB; rewrite -row_free_unit => /eqP {1}<-.
  by rewrite -[\rank B']mxrank_tr mxrankM_maxr.
have nzr (A : 'M[F]_(g, l)) (i : 'I_g) : row_free A -> row i A = 0 -> False.
  move=> fA; rewrite rowE => h; have := row_free_inj fA (etrans h (esym (mul0mx _ A))).
  by move/rowP/(_ i)/eqP; rewrite !mxE !eqxx oner_eq0.
have apx : all (fun p => p < l)%N pgx.
  apply/(all_nthP 0%N) => i; rewrite spx => li; rewrite ltnNge; apply/negP => ge.
  apply: (nzr B (Ordinal li) fB); apply/rowP => j; rewrite !mxE ent_drop /= x4 //.
have apz : all (fun p => p < l)%N pgz.
  apply/(all_nthP 0%N) => i; rewrite spz => li; rewrite ltnNge; apply/negP => ge.
  apply: (nzr B' (Ordinal li) fB'); apply/rowP => j; rewrite !mxE ent_drop /= z4 //.
rewrite size_iota apx apz /=.
set f0 := CForm _ _ _ _ _ _ _ _ _ _ _ _ _; exists f0.
suff [lx [lz [h1 h2]]] : exists lx lz, css_logicals n k true f0 = Some (lx, lz) /\ css_dual n k X Z lx lz by exists lx, lz.
rewrite /css_logicals /= (gl_cols ln apx) size_iota; clear f0.
set NZ := selcols (iota 0 l) (selrows (iota sz g) MZ); set NX := selcols (iota 0 l) (selrows (iota sx g) MX).
have [r1 r2 r3] := mx_sel_rows sMZ (leqnn (sz + g)) wMZ; have [r4 r5 r6] := mx_sel_rows sMX (leqnn (sx + g)) wMX.
have wNZ : wf l NZ by rewrite -{1}(size_iota 0 l) wf_selcols.
have wNX : wf l NX by rewrite -{1}(size_iota 0 l) wf_selcols.
have sNZ : size NZ = g by rewrite size_selcols.
have sNX : size NX = g by rewrite size_selcols.
have mNZ : mx g l NZ = B'.
  by apply/matrixP => i j; rewrite !mxE ent_selcols ?r1 ?size_iota // nth_iota // add0n r3 // ent_drop.
have mNX : mx g l NX = B.
  by apply/matrixP => i j; rewrite !mxE ent_selcols ?r4 ?size_iota // nth_iota // add0n r6 // ent_drop.
set U := null_space l NZ; set W := null_space l NX.
have [rU eU] := null_space_spec wNZ; have [rW eW] := null_space_spec wNX.
have tr (A : mat) (C : 'M[F]_(g, l)) : size A = g -> mx g l A = C -> (kermx (sp l A)^T :=: kermx C^T)%MS.
  by move=> sA <-; rewrite /sp; move: sA; clear; case: _ /.
have sU : size U = k.
  by rewrite size_null_space // (sp_mx _ sNZ) mNZ; move/eqP: fB' => ->; rewrite el addnK.
have sW : size W = k.
  by rewrite size_null_space // (sp_mx _ sNX) mNX; move/eqP: fB => ->; rewrite el addnK.
have wU : wf l U by exact: wf_null_space.
have wW : wf l W by exact: wf_null_space.
have eU' : (mx k l U :=: kermx B'^T)%MS.
  by apply: eqmx_trans (eqmx_sym (sp_mx _ sU)) _; apply: eqmx_trans eU _; apply: tr.
have eW' : (mx k l W :=: kermx B^T)%MS.
  by apply: eqmx_trans (eqmx_sym (sp_mx _ sW)) _; apply: eqmx_trans eW _; apply: tr.
have fU : row_free (mx k l U) by rewrite /row_free -(sp_mx _ sU) (rref_rank rU) sU.
have fW : row_free (mx k l W) by rewrite /row_free -(sp_mx _ sW) (rref_rank rW) sW.
have uUW := seeds_unit uB el eU' eW' fU fW.
rewrite sU sW eqxx /=.
have mUW : mx k k (mull k U (trl l W)) = mx k l U *m (mx k l W)^T.
  by rewrite (mx_mull _ sU wU (size_trl l W)) mx_trl.
have [I [-> sI wI mI]] : exists I, [/\ inv_mat k (mull k U (trl l W)) = Some I, size I = k, wf k I
    & mx k k I = invmx (mx k l U *m (mx k l W)^T)].
  by rewrite -mUW; apply: inv_mat_ok; rewrite ?size_mull ?wf_mull // mUW.
do 2 eexists; split; first by [].
have wtU : wf k (trl l U) by rewrite -sU wf_trl.
have wtW : wf k (trl l W) by rewrite -sW wf_trl.
have [s1 w1 o1 m1] := seed_ok ln (size_trl l U) wtU.
have [s2 w2 o2 m2] := seed_ok ln (etrans (size_mull k (trl l W) I) (size_trl l W)) (wf_mull k (trl l W) I).
rewrite mx_trl // in m1; rewrite (mx_mull _ (size_trl l W) wtW sI) mx_trl // mI in m2.
set xx0 := assign _ (trl l U) _ in s1 w1 o1 m1 *; set zz0 := assign _ (mull k _ _) _ in s2 w2 o2 m2 *.
have [||| k1 k2 k3] := css_fill en sMX wMX sMZ wMZ x2 x3 z2 z3 s1 s2 w1 w2 o1 o2 m1 m2 => //.
- by rewrite -/B' -[LHS]trmxK trmx_mul trmxK (_ : mx k l U *m B'^T = 0) ?trmx0 //; apply/sub_kermxP; rewrite eU'.
- rewrite -/B mulmxA (_ : B *m (mx k l W)^T = 0) ?mul0mx //.
  by rewrite -[LHS]trmxK trmx_mul trmxK (_ : mx k l W *m B^T = 0) ?trmx0 //; apply/sub_kermxP; rewrite eW'.
- by rewrite trmxK mulmxA mulmxV.
apply: (css_finish pl wX wZ sMX sMZ eMX' eMZ' _ _ _ _ k1 k2 k3); try by rewrite size_assign.
  by rewrite wf_assign ?wf_mull // size_mull size_mopp size_selrows size_iota.
by rewrite wf_assign ?wf_mull // size_mull size_mopp size_selrows size_iota.
Qed.
End Logs.
