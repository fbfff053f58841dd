(* The standard form of the parity checks of a CSS code. *)
From mathcomp Require Import all_ssreflect all_algebra zify.
From Verif Require Import LinAlg RowReduce Classical ClassicalProofs ClassicalProofs2 Symplectic Quantum QuantumProofs
  QuantumPerm QuantumStab QuantumLogs Css.
Set Implicit Arguments.
Unset Strict Implicit.
Unset Printing Implicit Defensive.
Import GRing.Theory.
Local Open Scope ring_scope.

Section Form.
Variable F : fieldType.
Notation vec := (seq F).
Notation mat := (seq (seq F)).

(* -------------------------------------------------------- permutations of columns *)
Lemma wf_selp n p (A : mat) : perm_eq p (iota 0 n) -> wf n (selcols p A).
Proof. by move=> pe; have := wf_selcols p A; rewrite (perm_size pe) size_iota. Qed.

Lemma mx_selp m n p (A : mat) : perm_eq p (iota 0 n) -> size A = m -> wf n A ->
  mx m n (selcols p A) = mx m n A *m selmx F n n p.
Proof.
move=> pe <- wA; have := sp_selcols p wA.
have -> : size p = n by rewrite (perm_size pe) size_iota.
by [].
Qed.

Lemma sp_selp n p (A : mat) : perm_eq p (iota 0 n) -> wf n A -> (sp n (selcols p A) :=: sp n A *m selmx F n n p)%MS.
Proof. by move=> pe wA; apply: eqmx_trans (sp_mx _ (size_selcols p A)) _; rewrite mx_selp. Qed.

Lemma selmx_tr n p : perm_eq p (iota 0 n) -> selmx F n n p *m (selmx F n n p)^T = 1%:M.
Proof.
move=> pe; have sp : size p = n by rewrite (perm_size pe) size_iota.
apply/matrixP => i i'; rewrite !mxE.
have ip : (i : nat) \in p by rewrite (perm_mem pe) mem_iota /=.
have lt : (index (i : nat) p < n)%N by rewrite -{2}sp index_mem.
rewrite (bigD1 (Ordinal lt)) //= !mxE /= nth_index // eqxx mul1r big1 ?addr0; first by rewrite eq_sym.
move=> j ne; rewrite !mxE (_ : (_ == nth 0%N p j) = false) ?mul0r //.
apply/negbTE; apply: contra ne => /eqP e; apply/eqP/val_inj => /=.
by rewrite e index_uniq ?sp // (perm_uniq pe) iota_uniq.
Qed.

Lemma selmx_unit n p : perm_eq p (iota 0 n) -> selmx F n n p \in unitmx.
Proof. by move=> pe; have [] := mulmx1_unit (selmx_tr pe). Qed.

Lemma selmx_argsort n p : perm_eq p (iota 0 n) -> selmx F n n (argsort p) = (selmx F n n p)^T.
Proof.
move=> pe; have sp : size p = n by rewrite (perm_size pe) size_iota.
have pa := argsort_perm pe.
apply/matrixP => i j; rewrite !mxE; congr ((nat_of_bool _)%:R).
apply/idP/idP => /eqP e; apply/eqP; first by rewrite e (nth_argsort pe).
by rewrite e (argsort_nth pe).
Qed.

Lemma selcols_comp n p q (A : mat) : perm_eq p (iota 0 n) -> perm_eq q (iota 0 n) ->
  selcols q (selcols p A) = selcols [seq nth 0%N p i | i <- q] A.
Proof.
move=> pe qe; have sp : size p = n by rewrite (perm_size pe) size_iota.
rewrite /selcols -map_comp; apply: eq_map => r /=; rewrite /vsel -map_comp; apply/eq_in_map => i iq /=.
by rewrite (nth_map 0%N) // sp; move: iq; rewrite (perm_mem qe) mem_iota.
Qed.

Lemma rank_selp n p (A : mat) : perm_eq p (iota 0 n) -> wf n A -> \rank (sp n (selcols p A)) = \rank (sp n A).
Proof. by move=> pe wA; rewrite sp_selp // mxrankMfree // row_free_unit selmx_unit. Qed.

(* products are not affected by a permutation of the columns *)
Lemma prod_selp m1 m2 n p (A B : mat) : perm_eq p (iota 0 n) -> size A = m1 -> size B = m2 -> wf n A -> wf n B ->
  mx m1 n (selcols p A) *m (mx m2 n (selcols p B))^T = mx m1 n A *m (mx m2 n B)^T.
Proof.
move=> pe sA sB wA wB; rewrite !mx_selp // trmx_mul mulmxA -[mx m1 n A *m _ *m _]mulmxA selmx_tr //.
by rewrite mulmx1.
Qed.

Lemma orth_eqmx m1 m2 m3 m4 n (A : 'M[F]_(m1, n)) (B : 'M[F]_(m2, n)) (C : 'M[F]_(m3, n)) (D : 'M[F]_(m4, n)) :
  (A <= B)%MS -> (C <= D)%MS -> B *m D^T = 0 -> A *m C^T = 0.
Proof.
case/submxP => u ->; case/submxP => v -> h.
by rewrite trmx_mul mulmxA -[u *m B *m _]mulmxA h mulmx0 mul0mx.
Qed.

(* ------------------------------------------------------ stabilizer standard form *)
Definition cstd (n k sx sz : nat) (X Z : mat) (f : cform F) : Prop :=
  [/\ n = (k + (sx + sz))%N,
      f = CForm (cf_x f) (cf_z f) (cf_locs f) (iota 0 sx) [::] (iota 0 sz) [::]
                (iota k sx) [::] (iota 0 k) (iota (k + sx) sz) [::] (iota 0 k),
      perm_eq (cf_locs f) (iota 0 n),
      [/\ size (cf_x f) = sx, wf n (cf_x f), (sp n (cf_x f) :=: sp n (selcols (cf_locs f) X))%MS
        & forall i j, (i < sx)%N -> (j < sx)%N -> ent (cf_x f) i (k + j) = (i == j)%:R]
    & [/\ size (cf_z f) = sz, wf n (cf_z f), (sp n (cf_z f) :=: sp n (selcols (cf_locs f) Z))%MS
        & forall i j, (i < sz)%N -> (j < sz)%N -> ent (cf_z f) i (k + sx + j) = (i == j)%:R]].

Theorem css_stab_form_ok n (X Z : mat) : wf n X -> wf n Z -> sp n X *m (sp n Z)^T = 0 ->
  let sx := \rank (sp n X) in let sz := \rank (sp n Z) in
  cstd n (n - sx - sz) sx sz X Z (css_stab_form n X Z).
Proof.
move=> wX wZ cXZ sx sz; rewrite /css_stab_form.
have rX := canon_rref wX; have eX := sp_canon wX; have wX0 := wf_canon wX; have sX := size_canon wX.
have eZ := sp_canon wZ; have wZ0 := wf_canon wZ; have sZ := size_canon wZ.
rewrite -/sx in sX; rewrite -/sz in sZ.
have cXZ0 : sp n (canon n X) *m (sp n (canon n Z))^T = 0 by apply: (orth_eqmx _ _ cXZ); rewrite ?eX ?eZ.
set X0 := canon n X in rX eX wX0 sX cXZ0 *; set Z0 := canon n Z in eZ wZ0 sZ cXZ0 *.
set px := first_nonzero_cols X0.
have spx : size px = sx by rewrite size_map.
have upx : uniq px by rewrite (sorted_uniq ltn_trans ltnn) // (rref_sorted rX).
have apx : all (fun q => q < n)%N px.
  by apply/(all_nthP 0%N) => i; rewrite size_map => li; rewrite (nth_map [::]) // (rref_first_lt rX).
set p1 := _ ++ px.
have pp1 : perm_eq p1 (iota 0 n) by exact: perm_to_back.
have so1 := size_back upx apx; rewrite spx in so1.
have sxn : (sx <= n)%N by exact: rank_leq_col.
have np1 i : nth 0%N p1 (n - sx + i) = nth 0%N px i.
  by rewrite nth_cat so1 ltnNge leq_addr /= addKn.
have wX1 : wf n (selcols p1 X0) by exact: wf_selp.
have wZ1 : wf n (selcols p1 Z0) by exact: wf_selp.
have sX1 : size (selcols p1 X0) = sx by rewrite size_map.
have sZ1 : size (selcols p1 Z0) = sz by rewrite size_map.
have sp1 : size p1 = n by rewrite (perm_size pp1) size_iota.
have G1 i j : (i < sx)%N -> (j < sx)%N -> ent (selcols p1 X0) i (n - sx + j) = (i == j)%:R.
  move=> li lj; rewrite ent_selcols ?sX ?sp1 //; last by lia.
  by rewrite np1 (nth_map [::]) ?sX //; case: rX => _ _ _ ->; rewrite ?sX.
have c1 : mx sx n (selcols p1 X0) *m (mx sz n (selcols p1 Z0))^T = 0.
  rewrite prod_selp //; move: cXZ0; rewrite /sp; move: sX sZ; clear.
  by case: _ /; case: _ /.
have rk1 : \rank (sp n (selcols p1 Z0)) = sz by rewrite rank_selp // eZ.
have rr : row_reduce n (selcols p1 Z0) = canon n (selcols p1 Z0).
  by rewrite row_reduce_canon // size_canon // rk1 sZ1 subnn cats0.
have rZ2 := canon_rref wZ1; have eZ2 := sp_canon wZ1; have wZ2 := wf_canon wZ1; have sZ2 := size_canon wZ1.
rewrite rk1 in sZ2; rewrite rr.
set X1 := selcols p1 X0 in wX1 sX1 G1 c1 *; set Z2 := canon n (selcols p1 Z0) in rZ2 eZ2 wZ2 sZ2 *.
have c2 : mx sx n X1 *m (mx sz n Z2)^T = 0.
  apply: (orth_eqmx (submx_refl _) _ c1).
  by rewrite -(sp_mx n sZ2) eZ2 (sp_mx n sZ1).
set pz := first_nonzero_cols Z2.
have spz : size pz = sz by rewrite size_map.
have upz : uniq pz by rewrite (sorted_uniq ltn_trans ltnn) // (rref_sorted rZ2).
have npz i : (i < sz)%N -> nth 0%N pz i = first_nz (nth [::] Z2 i).
  by move=> li; rewrite (nth_map [::]) // sZ2.
have ltpz i : (i < sz)%N -> (first_nz (nth [::] Z2 i) < n - sx)%N.
  move=> li; rewrite ltnNge; apply/negP => ge.
  have ri : nth [::] Z2 i \in Z2 by apply: mem_nth; rewrite sZ2.
  have z j : (j < n - sx)%N -> ent Z2 i j = 0.
    by move=> lj; apply: (rref_lead_row rZ2); rewrite ?sZ2 //; apply: leq_trans ge.
  have [_ nzr _ _] := rZ2; have [j lj nz] := nzr _ ri; apply: nz.
  have [lt | ge'] := ltnP j (n - sx); first exact: z.
  have lt1 : (j - (n - sx) < sx)%N by move: ge' lj sxn; clear; lia.
  move/matrixP: c2 => /(_ (Ordinal lt1) (Ordinal li)); rewrite !mxE (bigD1 (Ordinal lj)) //= big1 => [|j' ne].
    rewrite !mxE /= addr0; have := G1 (j - (n - sx))%N (j - (n - sx))%N lt1 lt1.
    by rewrite subnKC // eqxx => ->; rewrite mul1r.
  rewrite !mxE /=; have [lt' | ge''] := ltnP j' (n - sx); first by rewrite z ?mulr0.
  have lt2 : (j' - (n - sx) < sx)%N by move: (ltn_ord j') ge'' sxn; clear; lia.
  have := G1 _ _ lt1 lt2; rewrite subnKC // => ->.
  have -> : (j - (n - sx) == j' - (n - sx))%N = false; last by rewrite mul0r.
  by apply/negbTE; move: ne ge' ge''; rewrite -val_eqE /=; clear; lia.
have apz : all (fun q => q < n - sx)%N pz.
  by apply/(all_nthP 0%N) => i; rewrite spz => li; rewrite npz // ltpz.
have apz' : all (fun q => q < n)%N pz.
  by apply: sub_all apz => q; move/leq_trans; apply; apply: leq_subr.
set p2 := _ ++ pz.
have pp2 : perm_eq p2 (iota 0 n) by exact: perm_to_back.
have so2 := size_back upz apz'; rewrite spz in so2.
have so3 := size_back upz apz; rewrite spz in so3.
have lez : (sx + sz <= n)%N.
  have : (size pz <= n - sx)%N.
    rewrite -(size_iota 0 (n - sx)); apply: uniq_leq_size => // q qp; rewrite mem_iota /=.
    by move/allP: apz; apply.
  by rewrite spz; move: sxn; clear; lia.
have e2 : [seq q <- iota 0 n | q \notin pz] = [seq q <- iota 0 (n - sx) | q \notin pz] ++ iota (n - sx) sx.
  rewrite -{1}(subnK sxn) iotaD filter_cat add0n; congr (_ ++ _); apply/all_filterP/allP => q.
  rewrite mem_iota => hq; apply/negP => /(allP apz); move: hq; clear -sxn; lia.
have np2 j : (j < sx)%N -> nth 0%N p2 (n - sx - sz + j) = (n - sx + j)%N.
  move=> lj; rewrite nth_cat so2 (_ : (_ < _)%N); last by move: lj; clear -sxn lez; lia.
  by rewrite e2 nth_cat so3 ltnNge leq_addr /= addKn nth_iota.
have np3 j : nth 0%N p2 (n - sx - sz + sx + j) = nth 0%N pz j.
  rewrite nth_cat so2 (_ : (_ < _)%N = false); last by clear -sxn lez; lia.
  by congr (nth _ _ _); clear -sxn lez; lia.
have locE : [seq nth 0%N (iota 0 n) q | q <- p1] = p1.
  apply: map_id_in => q; rewrite (perm_mem pp1) mem_iota add0n => /= lq; exact: nth_iota.
have sp2 : size p2 = n by rewrite (perm_size pp2) size_iota.
rewrite locE spx spz; split=> /=.
- by move: lez; clear; lia.
- by [].
- exact: perm_comp.
- split; rewrite ?size_selcols //; first exact: wf_selp.
    rewrite -(selcols_comp _ pp1 pp2); apply: eqmx_trans (sp_selp pp2 wX1) _.
    apply: eqmx_trans _ (eqmx_sym (sp_selp pp2 (wf_selp _ pp1))); apply: eqmxMr.
    apply: eqmx_trans (sp_selp pp1 wX0) _; apply: eqmx_trans _ (eqmx_sym (sp_selp pp1 wX)).
    exact: eqmxMr.
  move=> i j li lj; rewrite ent_selcols ?sX1 ?sp2 //; last by move: lj lez; clear; lia.
  by rewrite np2 // G1.
split; rewrite ?size_selcols //; first exact: wf_selp.
  rewrite -(selcols_comp _ pp1 pp2); apply: eqmx_trans (sp_selp pp2 wZ2) _.
  apply: eqmx_trans _ (eqmx_sym (sp_selp pp2 (wf_selp _ pp1))); apply: eqmxMr.
  apply: eqmx_trans eZ2 _.
  apply: eqmx_trans (sp_selp pp1 wZ0) _; apply: eqmx_trans _ (eqmx_sym (sp_selp pp1 wZ)).
  exact: eqmxMr.
move=> i j li lj; rewrite ent_selcols ?sZ2 ?sp2 //; last by move: lj lez; clear; lia.
by rewrite np3 npz //; case: rZ2 => _ _ _ -> //; rewrite sZ2.
Qed.

(* ------------------------------------------------------------- subsystem codes *)
Lemma sorted_prefix s (t : seq nat) : sorted ltn t -> {subset iota 0 s <= t} ->
  (s <= size t)%N /\ forall i, (i < s)%N -> nth 0%N t i = i.
Proof.
move=> srt sub; have [e _] := sorted_filter s srt.
have ef : [seq p <- t | (p < s)%N] = iota 0 s.
  apply: (irr_sorted_eq ltn_trans ltnn); rewrite ?iota_ltn_sorted ?(path.sorted_filter ltn_trans) //.
  move=> x; rewrite mem_filter mem_iota add0n /=; case: (ltnP x s) => //= lt; apply: sub; by rewrite mem_iota.
rewrite ef size_iota in e; have le : (s <= size t)%N.
  by have := congr1 size e; rewrite size_iota size_take; case: ltnP; lia.
split=> // i li; have := congr1 (fun u => nth 0%N u i) e.
by rewrite nth_iota // nth_take.
Qed.

Lemma rref_prefix n s (M : mat) (C : 'M[F]_(s, n)) : is_rref n M -> (C <= sp n M)%MS -> (s <= n)%N ->
  (forall i (j : 'I_n), (j < s)%N -> C i j = ((i : nat) == j)%:R) ->
  (s <= size M)%N /\ forall i j, (i < size M)%N -> (j < s)%N -> ent M i j = (i == j)%:R.
Proof.
move=> rM hC sn hid.
have sub : {subset iota 0 s <= first_nonzero_cols M}.
  move=> j; rewrite mem_iota add0n => /= lj; have ljn : (j < n)%N by apply: leq_trans sn.
  have hr : (row (Ordinal lj) C <= sp n M)%MS by apply: submx_trans (row_sub _ _) hC.
  have [||k lk e] := @rref_lead F n M (row (Ordinal lj) C) (Ordinal ljn) rM hr.
  - by rewrite !mxE hid //= eqxx oner_eq0.
  - move=> c /= lc; rewrite !mxE hid /=; last exact: ltn_trans lc lj.
    by rewrite gtn_eqF.
  have -> : j = first_nz (nth [::] M k) by rewrite e.
  by apply: map_f; apply: mem_nth.
have [le h] := sorted_prefix (rref_sorted rM) sub.
rewrite size_map in le; split=> // i j li lj.
have lj' : (j < size M)%N by apply: leq_trans le.
have := h j lj; rewrite (nth_map [::]) // => {1}<-.
by case: rM => _ _ _ ->.
Qed.

Lemma css_sector_ok n s l o (st checks : mat) perm : perm_eq perm (iota 0 n) -> size st = s -> wf n st -> wf n checks ->
  (s + l <= n)%N ->
  (forall j, (j < s)%N -> nth 0%N perm j = (o + j)%N) -> (forall j, (j < l)%N -> nth 0%N perm (s + j) = j) ->
  (forall i j, (i < s)%N -> (j < s)%N -> ent st i (o + j) = (i == j)%:R) ->
  forall M piv, css_sector n st checks perm = (M, piv) ->
  [/\ size M = \rank (sp n (st ++ checks)), wf n M, (sp n M :=: sp n (st ++ checks))%MS,
      (s <= size M)%N /\ size piv = (size M - s)%N
    & [/\ forall i j, (i < s)%N -> (j < s)%N -> ent M i (o + j) = (i == j)%:R,
          forall i j, (s <= i < size M)%N -> (j < s)%N -> ent M i (o + j) = 0
        & forall i, (i < size M - s)%N -> (l <= nth 0%N piv i)%N -> forall j, (j < l)%N -> ent M (s + i) j = 0]].
Proof.
move=> pe sst wst wch sln hp1 hp2 hid M piv; rewrite /css_sector sst; case=> <- <- {M piv}; set piv := map _ _.
have sn : (s <= n)%N by apply: leq_trans sln; rewrite leq_addr.
have wA : wf n (st ++ checks) by rewrite wf_cat wst.
have wB : wf n (selcols perm (st ++ checks)) by exact: wf_selp.
have rM := canon_rref wB; have eM := sp_canon wB; have wM := wf_canon wB; have sM := size_canon wB.
rewrite rank_selp // in sM.
set M1 := canon n (selcols perm (st ++ checks)) in rM eM wM sM *.
have sperm : size perm = n by rewrite (perm_size pe) size_iota.
have [le hM] : (s <= size M1)%N /\ forall i j, (i < size M1)%N -> (j < s)%N -> ent M1 i j = (i == j)%:R.
  apply: (@rref_prefix n s M1 (mx s n (selcols perm st)) rM _ sn).
    rewrite eM /selcols map_cat sp_cat -addsmxE -(sp_mx n (_ : size (selcols perm st) = s)) ?size_selcols //.
    exact: addsmxSl.
  move=> i j lj; rewrite mxE ent_selcols ?sst ?sperm // hp1 // hid //.
set M2 := selcols (argsort perm) M1.
have pa := argsort_perm pe.
have wM2 : wf n M2 by exact: wf_selp.
have sM2 : size M2 = size M1 by rewrite size_selcols.
have entM2 i j : (i < size M1)%N -> (j < n)%N -> ent M2 i (nth 0%N perm j) = ent M1 i j.
  move=> li lj; rewrite ent_selcols // ?(argsort_nth pe) //.
  by rewrite size_argsort sperm (perm_iota_lt pe).
have eM2 : (sp n M2 :=: sp n (st ++ checks))%MS.
  apply: eqmx_trans (sp_selp pa wM) _; rewrite (selmx_argsort pe).
  apply: eqmx_trans (eqmxMr _ (eqmx_trans eM (sp_selp pe wA))) _.
  by rewrite -mulmxA selmx_tr // mulmx1.
have spiv : size piv = (size M1 - s)%N by rewrite size_map size_drop size_map.
set r := (size M1 - s)%N in spiv.
set T := take s M2; set D := drop s M2; set Y := selcols piv (take s st).
have sT : size T = s by rewrite size_takel // sM2.
have sD : size D = r by rewrite size_drop sM2.
have sY : size Y = s by rewrite size_selcols take_oversize ?sst.
have wT : wf n T by exact: wf_take.
have wD : wf n D by exact: wf_drop.
have wY : wf r Y by rewrite -spiv wf_selcols.
have sYD : size (mull n Y D) = s by rewrite size_mull.
set T' := madd T (mull n Y D).
have sT' : size T' = s by rewrite size_madd sT ?sYD.
have wT' : wf n T' by rewrite wf_madd // wf_mull.
have mT' : mx s n T' = mx s n T + mx s r Y *m mx r n D.
  by rewrite (mx_madd _ (n := n)) ?wf_mull ?sT ?sYD // (mx_mull _ sY wY sD).
have entD i j : (i < r)%N -> (j < s)%N -> ent D i (o + j) = 0.
  move=> li lj; rewrite ent_drop -hp1 // entM2 //; try (move: li lj sn; rewrite /r; clear; lia).
  rewrite hM //; last by (move: li; rewrite /r; clear; lia).
  by rewrite gtn_eqF //; move: lj; clear; lia.
have sMf : size (T' ++ D) = size M1 by rewrite size_cat sT' sD /r subnKC.
split; first by rewrite sMf sM.
- by rewrite wf_cat wT'.
- apply: eqmx_trans _ eM2; apply: eqmx_trans (sp_cat _ _ _) _; apply: eqmx_trans (eqmx_sym (addsmxE _ _)) _.
  apply: eqmx_sym; apply: eqmx_trans (sp_split s n M2) _; rewrite -/T -/D.
  apply: eqmx_trans (adds_eqmx (sp_mx n sT) (sp_mx n sD)) _; apply: eqmx_sym.
  apply: eqmx_trans (adds_eqmx (sp_mx n sT') (sp_mx n sD)) _; rewrite mT'.
  apply/eqmxP; rewrite !addsmx_sub !addsmxSr !andbT; apply/andP; split.
    by rewrite addmx_sub_adds // submxMl.
  by rewrite -{1}[mx s n T](addrK (mx s r Y *m mx r n D)) addmx_sub_adds // eqmx_opp submxMl.
- by rewrite sMf spiv.
have entT i j : (i < s)%N -> (j < s)%N -> ent T i (o + j) = (i == j)%:R.
  move=> li lj; rewrite ent_take // -hp1 // entM2 //; try (move: li lj sn le; clear; lia).
  by rewrite hM //; move: li le; clear; lia.
have on lj : (lj < s)%N -> (o + lj < n)%N by move=> h; rewrite -hp1 // (perm_iota_lt pe) //; apply: leq_trans sn.
split=> [i j | i j | i]; rewrite ?sMf.
- move=> li lj; rewrite ent_cat sT' li.
  have := congr1 (fun m : 'M[F]_(s, n) => m (Ordinal li) (Ordinal (on _ lj))) mT'; rewrite !mxE /= => ->.
  rewrite entT // big1 ?addr0 // => t _; rewrite !mxE /= entD ?mulr0 //.
- move=> li lj; rewrite ent_cat sT' ltnNge (andP li).1 /= entD //.
  by move: li; rewrite /r; clear; lia.
move=> li hge j lj; rewrite ent_cat sT' ltnNge leq_addr /= addKn ent_drop -(hp2 j lj).
have bd : (s + i < size M1)%N by move: li; clear; lia.
rewrite entM2 //; last by move: lj sln; clear; lia.
apply: (rref_lead_row rM) => //; apply: leq_trans (_ : s + l <= _)%N; first by rewrite ltn_add2l.
move: hge; rewrite (nth_map 0%N) ?size_drop ?size_map // nth_drop (nth_map [::]) // -/M1; move: lj; clear; lia.
Qed.
End Form.
