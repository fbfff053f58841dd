(* Logical operators computed from the standard form. *)
From mathcomp Require Import all_ssreflect all_algebra zify.
From Verif Require Import LinAlg RowReduce Classical ClassicalProofs ClassicalProofs2 Symplectic Quantum QuantumProofs
  QuantumPerm QuantumStab.
Set Implicit Arguments.
Unset Strict Implicit.
Unset Printing Implicit Defensive.
Import GRing.Theory.
Local Open Scope ring_scope.

Section Logs.
Variable F : fieldType.
Notation vec := (seq F).
Notation mat := (seq (seq F)).

Lemma size_assign rows (B A : mat) : size (assign rows B A) = size A. Proof. by rewrite size_mkseq. Qed.

Lemma assign_nil (B A : mat) : assign [::] B A = A.
Proof. by apply: (@eq_from_nth _ [::]); rewrite size_assign // => i li; rewrite nth_mkseq. Qed.

Lemma nth_assign a b (B A : mat) i : (i < size A)%N ->
  nth [::] (assign (iota a b) B A) i = if (a <= i < a + b)%N then nth [::] B (i - a) else nth [::] A i.
Proof.
move=> li; rewrite nth_mkseq // mem_iota; case: ifP => // /andP [h1 h2].
have lt : (i - a < b)%N by lia.
by rewrite -{1}(subnKC h1) -(nth_iota 0%N a lt) index_uniq ?size_iota ?iota_uniq.
Qed.

Lemma wf_assign n a b (B A : mat) : wf n A -> wf n B -> size B = b -> wf n (assign (iota a b) B A).
Proof.
move=> wA wB sB; apply/wfP => r /(nthP [::]) [i]; rewrite size_assign => li <-; rewrite nth_assign //.
by case: ifP => h; apply: wf_nth => //; rewrite sB; lia.
Qed.

Lemma ent_assign a b (B A : mat) i j : (i < size A)%N ->
  ent (assign (iota a b) B A) i j = if (a <= i < a + b)%N then ent B (i - a) j else ent A i j.
Proof. by move=> li; rewrite /ent nth_assign //; case: ifP. Qed.

(* assignment to the first, second and third of three blocks of rows *)
Lemma mx_assign1 a b c k (B A : mat) X Y Z : size A = (a + (b + c))%N -> mx (a + (b + c)) k A = col_mx X (col_mx Y Z) ->
  mx (a + (b + c)) k (assign (iota 0 a) B A) = col_mx (mx a k B) (col_mx Y Z).
Proof.
move=> sA /matrixP e; apply/matrixP => i j; have := e i j; rewrite !mxE ent_assign ?sA // add0n subn0 leq0n /=.
by case: split_ordP => i1 ->; rewrite ?mxE.
Qed.
Lemma mx_assign2 a b c k (B A : mat) X Y Z : size A = (a + (b + c))%N -> mx (a + (b + c)) k A = col_mx X (col_mx Y Z) ->
  mx (a + (b + c)) k (assign (iota a b) B A) = col_mx X (col_mx (mx b k B) Z).
Proof.
move=> sA /matrixP e; apply/matrixP => i j; have := e i j; rewrite !mxE ent_assign ?sA //.
case: split_ordP => i1 ->; rewrite ?mxE /=; first by rewrite leqNgt ltn_ord.
rewrite leq_addr ltn_add2l addKn; case: split_ordP => i2 ->; rewrite ?mxE /= ?ltn_ord //.
Qed.
Lemma mx_assign3 a b c k (B A : mat) X Y Z : size A = (a + (b + c))%N -> mx (a + (b + c)) k A = col_mx X (col_mx Y Z) ->
  mx (a + (b + c)) k (assign (iota (a + b) c) B A) = col_mx X (col_mx Y (mx c k B)).
Proof.
move=> sA /matrixP e; apply/matrixP => i j; have := e i j; rewrite !mxE ent_assign ?sA //.
case: split_ordP => i1 ->; rewrite ?mxE /=.
  by rewrite (_ : (a + b <= i1)%N = false) //; have := ltn_ord i1; lia.
rewrite leq_add2l -addnA ltn_add2l subnDl; case: split_ordP => i2 ->; rewrite ?mxE /=.
  by rewrite leqNgt ltn_ord.
by rewrite leq_addr ltn_add2l ltn_ord addKn.
Qed.

Lemma mx_sel_rows m n a b (A : mat) : size A = m -> (a + b <= m)%N -> wf n A ->
  [/\ size (selrows (iota a b) A) = b, wf n (selrows (iota a b) A)
    & forall i j, (i < b)%N -> ent (selrows (iota a b) A) i j = ent A (a + i) j].
Proof.
move=> sA le wA; rewrite size_selrows size_iota; split=> //.
  by apply: wf_selrows => //; apply/allP => i; rewrite mem_iota sA; lia.
by move=> i j li; rewrite ent_selrows ?size_iota // nth_iota.
Qed.

Lemma symJ_split m p n (A B : 'M[F]_(m, n)) (C D : 'M[F]_(p, n)) :
  row_mx A B *m symJ F n *m (row_mx C D)^T = A *m D^T - B *m C^T.
Proof. by rewrite symJ_mx tr_row_mx mul_row_col mulNmx addrC. Qed.

Lemma dual_pairs_permq n k p (L : mat) : perm_eq p (iota 0 n) -> dual_pairs n k L -> dual_pairs n k (permq n p L).
Proof.
move=> pe [sL wL h]; have sp : size p = n by rewrite (perm_size pe) size_iota.
split; rewrite ?size_permq ?wf_permq // => i j li lj.
by rewrite !(nth_map [::]) ?sL // -!/(permr _ _ _) symp_permr ?h //; apply: wf_nth; rewrite ?sL.
Qed.

(* the logical operators of a stabilizer code in standard form *)
Lemma stab_logicals n k sx sz (H : mat) f : wf (n + n) H -> std_form n k sx sz H f ->
  exists L, logicals_of_form n k false f = Some L /\ logical_basis n k H L.
Proof.
move=> wH [en ef pl [sM wM eM] [g1 g2 g3]].
rewrite /logicals_of_form ef /= !size_iota eqxx /=.
set M := sf_mat f in sM wM eM g1 g2 g3 *; set locs := sf_locs f in pl eM *.
clear ef; clearbody M locs.
set zero := zerol F n k.
set Sz := selrows (iota sx sz) (z_part n M).
set Sx := selrows (iota 0 sx) (x_part n M).
set Tz := selrows (iota 0 sx) (z_part n M).
set xx0 := assign (iota 0 k) (idl F k) zero.
set xx := assign (iota (k + sx) sz) (mull k (mopp Sz) xx0) xx0.
set zz := assign (iota k sx) (mull k (mopp Sx) xx0) xx0.
rewrite assign_nil.
set xz := assign (iota k sx) _ xx0.
set lx := trl k (xx ++ xz); set lz := trl k (zero ++ zz).
have [sSz wSz eSz] := mx_sel_rows (etrans (size_z_part n M) sM) (leqnn _) (wf_z_part wM).
have [sSx wSx eSx] := mx_sel_rows (etrans (size_x_part n M) sM) (leq_addr _ _ : 0 + sx <= sx + sz)%N (wf_x_part wM).
have [sTz wTz eTz] := mx_sel_rows (etrans (size_z_part n M) sM) (leq_addr _ _ : 0 + sx <= sx + sz)%N (wf_z_part wM).
rewrite -/Sz -/Sx -/Tz in sSz wSz eSz sSx wSx eSx sTz wTz eTz.
have szero : size zero = n by rewrite /zero size_nseq.
have wzero : wf k zero by apply: wf_zerol.
have sxx0 : size xx0 = n by rewrite size_assign.
have wxx0 : wf k xx0 by rewrite wf_assign ?wf_idl ?size_idl.
have sxx : size xx = n by rewrite size_assign.
have wxx : wf k xx by rewrite wf_assign ?wf_mull ?size_mull ?size_mopp.
have szz : size zz = n by rewrite size_assign.
have wzz : wf k zz by rewrite wf_assign ?wf_mull ?size_mull ?size_mopp.
have sxz : size xz = n by rewrite size_assign.
have wxz : wf k xz.
  rewrite wf_assign //; first by rewrite wf_madd ?wf_mull ?size_mull ?size_mopp // sSx sTz.
  by rewrite size_madd ?size_mull ?size_mopp ?sSx ?sTz.
(* matrices *)
have [slx slz] : size lx = k /\ size lz = k by rewrite !size_trl.
have wlx : wf (n + n) lx by rewrite -{1}sxx -sxz -size_cat wf_trl.
have wlz : wf (n + n) lz by rewrite -{1}szero -szz -size_cat wf_trl.
have mlx : mx k (n + n) lx = row_mx (mx n k xx)^T (mx n k xz)^T.
  by rewrite mx_trl ?size_cat ?sxx ?sxz // mx_cat // tr_col_mx.
have mlz : mx k (n + n) lz = row_mx 0 (mx n k zz)^T.
  by rewrite mx_trl ?size_cat ?szero ?szz // mx_cat // mx_zerol tr_col_mx trmx0.
pose mxM := mx (sx + sz) (n + n) M.
have mM : mxM = row_mx (col_mx (mx sx n Sx) 0) (col_mx (mx sx n Tz) (mx sz n Sz)).
  rewrite /mxM mx_parts //; congr row_mx; apply/matrixP => i j; rewrite !mxE.
    by case: split_ordP => i1 ->; rewrite !mxE ?eSx //= ent_x_part // g2.
  by case: split_ordP => i1 ->; rewrite !mxE ?eTz ?eSz.
have key : [/\ mx sx n Sx *m mx n k zz = 0, mx sz n Sz *m mx n k xx = 0,
     mx sx n Sx *m mx n k xz = mx sx n Tz *m mx n k xx, (mx n k xx)^T *m mx n k zz = 1%:M
   & (mx n k xx)^T *m mx n k xz = 1%:M].
  have mTz : mx sx k (mull k Tz xx) = mx sx n Tz *m mx n k xx by rewrite (mx_mull k sTz wTz sxx).
  have mopx : mx sx k (mull k (mopp Sx) xx0) = - mx sx n Sx *m mx n k xx0.
    by rewrite (@mx_mull _ sx n) ?size_mopp ?wf_mopp // mx_mopp.
  have mopz : mx sz k (mull k (mopp Sz) xx0) = - mx sz n Sz *m mx n k xx0.
    by rewrite (@mx_mull _ sz n) ?size_mopp ?wf_mopp // mx_mopp.
  have mxz : mx sx k (madd (mull k (mopp Sx) xx0) (mull k Tz xx)) = - mx sx n Sx *m mx n k xx0 + mx sx n Tz *m mx n k xx.
    by rewrite (@mx_madd _ _ k) ?wf_mull ?size_mull ?size_mopp ?sSx ?sTz // mTz mopx.
  move: mxz; rewrite /xz; set Q := madd _ _ => mxz.
  move: (mx sx n Tz *m mx n k xx) mxz => T mxz.
  rewrite /xx /zz; move: mopx mopz; set Qx := mull k (mopp Sx) xx0; set Qz := mull k (mopp Sz) xx0 => mopx mopz.
  have hSx j : (j < sx)%N -> forall i, (i < sx)%N -> ent Sx i (k + j) = (i == j)%:R.
    by move=> lj i li; rewrite eSx // ent_x_part ?g1 //; move: lj; rewrite en; clear; lia.
  have hSz j : (j < sz)%N -> forall i, (i < sz)%N -> ent Sz i (k + sx + j) = (i == j)%:R.
    by move=> lj i li; rewrite eSz // ent_z_part g3.
  clear -en mxz mopx mopz hSx hSz szero; subst n.
  have m0 : mx (k + (sx + sz)) k zero = col_mx 0 (col_mx 0 0) by rewrite mx_zerol !col_mx0.
  have m1 : mx (k + (sx + sz)) k xx0 = col_mx 1%:M (col_mx 0 0).
    by rewrite (mx_assign1 _ szero m0) mx_idl.
  have s1 : size xx0 = (k + (sx + sz))%N by rewrite size_assign.
  rewrite (mx_assign3 _ s1 m1) (mx_assign2 _ s1 m1) (mx_assign2 _ s1 m1) mopx mopz mxz m1.
  set X := mx sx _ Sx; set Z := mx sz _ Sz.
  have eX : X = row_mx (lsubmx X) (row_mx 1%:M (rsubmx (rsubmx X))).
    rewrite -[LHS]hsubmxK; congr row_mx; rewrite -[LHS]hsubmxK; congr row_mx.
    by apply/matrixP => i j; rewrite !mxE /= hSx.
  have eZ : Z = row_mx (lsubmx Z) (row_mx (lsubmx (rsubmx Z)) 1%:M).
    rewrite -[LHS]hsubmxK; congr row_mx; rewrite -[LHS]hsubmxK; congr row_mx.
    by apply/matrixP => i j; rewrite !mxE /= addnA hSz.
  rewrite eX eZ; move: (lsubmx X) (rsubmx (rsubmx X)) (lsubmx Z) (lsubmx (rsubmx Z)) => A B C D.
  rewrite !opp_row_mx !mul_row_col !mulmx0 !addr0 !mulmx1 !mul1mx !tr_col_mx !mul_row_col !trmx0 !trmx1 !mul0mx !mulmx0.
  by rewrite ?add0r ?mul1mx ?addr0 !subrr addrA subrr add0r.
clearbody xx zz xz Sx Sz Tz; case: key => k1 k2 k3 k4 k5.
eexists; split; first by [].
have pa := argsort_perm pl.
have dp : dual_pairs n k (lx ++ lz).
  apply/(dual_pairsP slx slz wlx wlz); rewrite mlx mlz !symJ_split !trmxK trmx0 !mulmx0 !mul0mx !subr0; split=> //.
  rewrite k5; apply/eqP; rewrite subr_eq0; apply/eqP.
  by rewrite -[RHS]trmxK trmx_mul trmxK k5 trmx1.
have cm u v : u \in M -> v \in lx ++ lz -> symp n u v = 0.
  move: u v; apply/(commP wM _); first by rewrite wf_cat wlx.
  apply/scompP; rewrite (sp_cat _ lx lz) -addsmxE addsmx_sub (sp_mx _ slx) (sp_mx _ slz).
  rewrite mlx mlz !(scomp_eqmx (sp_mx _ sM)) -/mxM mM.
  apply/andP; split; apply/scompP; rewrite symJ_split !trmxK !mul_col_mx !mul0mx.
    by rewrite k2 k3 opp_col_mx add_col_mx subrr oppr0 addr0 col_mx0.
  by rewrite k1 trmx0 !mulmx0 !col_mx0 subr0.
split; first by rewrite -map_cat; apply: dual_pairs_permq.
move=> r l rH; rewrite -map_cat => /mapP [l' l'L ->]; rewrite -/(permr _ _ _).
have sr : size r = (n + n)%N by move/wfP: wH; apply.
have wL : wf (n + n) (lx ++ lz) by rewrite wf_cat wlx.
have sl : size l' = (n + n)%N by move/wfP: wL; apply.
rewrite symp_argsort //; have sl' : size locs = n by rewrite (perm_size pl) size_iota.
apply: (comm_eqmx wM wL (wf_permq _ sl') wL _ (submx_refl _) cm _ l'L); last by apply: map_f rH.
by rewrite eM.
Qed.

Theorem stab_logical_ops (c : qcode F) : q_ok c -> q_sub c = false -> 
  exists L, get_logical_ops c = Some L /\ logical_basis (q_n c) (q_dimension c) (q_mat c) L.
Proof.
move=> ok ns; have [wA h1 _ h3 _] := ok; have cA := h1 ns; have dc := dimension_counts ok.
rewrite /get_logical_ops; case el: (q_logs c) => [L |].
  exists L; split=> //; have [k [g [hl hc]]] := h3 _ el.
  by have [-> _] := counts_unique wA dc hc.
rewrite /standard_form ns /=.
have -> : q_dimension c = (q_n c - \rank (sp (q_n c + q_n c) (q_mat c)))%N.
  have := comm_gauge0 wA cA dc; case/(countsP _ _ wA): dc; rewrite (comm_center wA cA); lia.
have [sx [sz [f [-> hf]]]] := stab_form_ok wA cA.
exact: stab_logicals hf.
Qed.
End Logs.
