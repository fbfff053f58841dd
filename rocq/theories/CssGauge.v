(* Gauge operators. *)
From mathcomp Require Import all_ssreflect all_algebra zify.
From Verif Require Import LinAlg RowReduce Classical ClassicalProofs ClassicalProofs2 Symplectic Quantum QuantumProofs
  QuantumPerm QuantumStab QuantumLogs QuantumOps Css CssForm CssLogs CssProofs.
Set Implicit Arguments.
Unset Strict Implicit.
Unset Printing Implicit Defensive.
Import GRing.Theory.
Local Open Scope ring_scope.

Section Gauge.
Variable F : fieldType.
Notation vec := (seq F).
Notation mat := (seq (seq F)).
Notation Z n A := (sp (n + n) A :&: scomp (sp (n + n) A))%MS.

(* dual pairs are independent, also modulo operators that commute with them *)
Lemma pairs_gram n k (L : mat) : dual_pairs n k L ->
  \rank (sp (n + n) L *m symJ F n *m (sp (n + n) L)^T) = (k + k)%N.
Proof.
move=> dp; have [sL wL _] := dp; set X := take k L; set Y := drop k L.
have sX : size X = k by rewrite size_takel // sL leq_addr.
have sY : size Y = k by rewrite size_drop sL addnK.
have [wX wY] : wf (n + n) X /\ wf (n + n) Y by apply/andP; rewrite -wf_cat cat_take_drop.
have eL : L = X ++ Y by rewrite cat_take_drop.
have [h1 h2 h3] : [/\ mx k (n + n) X *m symJ F n *m (mx k (n + n) X)^T = 0,
      mx k (n + n) Y *m symJ F n *m (mx k (n + n) Y)^T = 0
    & mx k (n + n) X *m symJ F n *m (mx k (n + n) Y)^T = 1%:M] by apply/dual_pairsP => //; rewrite -eL.
have e : (sp (n + n) L :=: col_mx (mx k (n + n) X) (mx k (n + n) Y))%MS.
  by rewrite -mx_cat // -eL; apply: sp_mx.
rewrite (rank_gram_eqmx e) tr_col_mx mul_col_mx mul_col_mx !mul_mx_row h1 h2 h3 -block_mxEv.
have -> : mx k (n + n) Y *m symJ F n *m (mx k (n + n) X)^T = - 1%:M.
  by rewrite symJ_antisym h3 trmx1.
rewrite block_mxEv -addsmxE addsmxC addsmxE -block_mxEv rank_block mxrank_opp mxrank1 //.
Qed.

Lemma pairs_disjoint n k m (S : 'M[F]_(m, n + n)) (L : mat) : dual_pairs n k L ->
  S *m symJ F n *m (sp (n + n) L)^T = 0 -> S *m symJ F n *m S^T = 0 ->
  \rank (col_mx S (sp (n + n) L)) = (\rank S + (k + k))%N /\
  \rank (col_mx S (sp (n + n) L) *m symJ F n *m (col_mx S (sp (n + n) L))^T) = (k + k)%N.
Proof.
move=> dp h1 h2; have [sL wL _] := dp; have gr := pairs_gram dp.
set M := sp (n + n) L in h1 gr *; have h1' : M *m symJ F n *m S^T = 0 by rewrite symJ_antisym h1 trmx0 oppr0.
have eG : \rank (col_mx S M *m symJ F n *m (col_mx S M)^T) = (k + k)%N.
  rewrite tr_col_mx mul_col_mx mul_col_mx !mul_mx_row h1 h1' h2 -block_mxEv rank_block mxrank0 add0n //.
split=> //; have := rank_center_gram (col_mx S M); rewrite eG => e.
have le1 : (\rank S <= \rank (col_mx S M :&: scomp (col_mx S M)))%N.
  apply: mxrankS; rewrite sub_capmx -addsmxE addsmxSl /=; apply/scompP'.
  by rewrite tr_col_mx mul_mx_row h2 h1 row_mx0.
have le2 : (\rank (col_mx S M) <= \rank S + (k + k))%N.
  rewrite -addsmxE; apply: leq_trans (mxrank_adds_leqif _ _) _; rewrite leq_add2l.
  by apply: leq_trans (rank_leq_row _) _; rewrite sL.
move: e le1 le2; clear; lia.
Qed.

Section Dual.
Variables (n k g : nat) (A S L : mat).
Hypotheses (wA : wf (n + n) A) (wS : wf (n + n) S) (eS : (sp (n + n) S :=: Z n A)%MS).
Hypotheses (lb : logical_basis n k A L) (cA : counts n A k g).

Let wL : wf (n + n) L. Proof. by have [[_ wL _] _] := lb. Qed.

Let AL : sp (n + n) A *m symJ F n *m (sp (n + n) L)^T = 0.
Proof. by apply/commP => //; have [_ h] := lb. Qed.
Let SA : (sp (n + n) S <= sp (n + n) A)%MS. Proof. by rewrite eS capmxSl. Qed.
Let AS : sp (n + n) A *m symJ F n *m (sp (n + n) S)^T = 0.
Proof. by apply/scompP; rewrite eS capmxSr. Qed.
Let SL : sp (n + n) S *m symJ F n *m (sp (n + n) L)^T = 0.
Proof. by have /submxP [D ->] := SA; rewrite -!mulmxA [_ *m (symJ F n *m _)]mulmxA AL mulmx0. Qed.
Let SS : sp (n + n) S *m symJ F n *m (sp (n + n) S)^T = 0.
Proof. by have /submxP [D e] := SA; rewrite [X in X *m _ *m _]e -!mulmxA [_ *m (symJ F n *m _)]mulmxA AS mulmx0. Qed.

Lemma wf_dual : wf (n + n) (S ++ L). Proof. by rewrite wf_cat wS. Qed.

(* the dual code swaps logical and gauge qudits *)
Lemma dual_counts : counts n (S ++ L) g k.
Proof.
have [e1 e2] := proj1 (countsP _ _ wA) cA; have [dp _] := lb.
apply/(countsG _ _ wf_dual (sp_cat _ S L)); have [-> ->] := pairs_disjoint dp SL SS; split=> //.
by rewrite eS; move: e2; clear; lia.
Qed.

(* logical operators of the dual code generate the gauge group together with the stabilizers *)
Lemma dual_generate (G : mat) : logical_basis n g (S ++ L) G -> (sp (n + n) (S ++ G) :=: sp (n + n) A)%MS.
Proof.
case=> dG hG; have [_ wG _] := dG; have [dL _] := lb.
have [e1 e2] := proj1 (countsP _ _ wA) cA.
have SLG := proj1 (commP wf_dual wG) hG.
have eSL : (sp (n + n) (S ++ L) :=: col_mx (sp (n + n) S) (sp (n + n) L))%MS by apply: sp_cat.
have SG : sp (n + n) S *m symJ F n *m (sp (n + n) G)^T = 0.
  by apply/commP => // u v uS vG; apply: hG => //; rewrite mem_cat uS.
have AsubC : (sp (n + n) A <= scomp (sp (n + n) (S ++ L)))%MS.
  rewrite (scomp_eqmx eSL); apply/scompP'; rewrite tr_col_mx mul_mx_row AS AL row_mx0 //.
have eA : (sp (n + n) A :=: scomp (sp (n + n) (S ++ L)))%MS.
  apply/eqmxP; rewrite AsubC -(geq_leqif (mxrank_leqif_sup AsubC)) rank_scomp eSL.
  have [-> _] := pairs_disjoint dL SL SS; rewrite eS e1; move: e2; clear; lia.
have GsubA : (sp (n + n) G <= sp (n + n) A)%MS by rewrite eA; apply/scompP.
apply: eqmx_trans (sp_cat _ S G) _.
have sub : (col_mx (sp (n + n) S) (sp (n + n) G) <= sp (n + n) A)%MS by rewrite -addsmxE addsmx_sub SA.
apply/eqmxP; rewrite sub -(geq_leqif (mxrank_leqif_sup sub)).
have [-> _] := pairs_disjoint dG SG SS; rewrite e1 eS; clear; lia.
Qed.
End Dual.

(* gauge operators of a qudit code, given correct logical operators of the code and of its dual *)
Lemma q_gauge_ok (c : qcode F) (d : qcode F) L G : q_ok c -> q_sub c -> q_gauge c = None ->
  let n := q_n c in
  get_logical_ops c = Some L -> logical_basis n (q_dimension c) (q_mat c) L ->
  q_dual c = Some d -> get_logical_ops d = Some G -> logical_basis n (q_dimension d) (q_mat d) G ->
  [/\ q_get_gauge_ops c = Some G, dual_pairs n (q_gauge_dimension c) G,
    forall r v, r \in (get_stabilizer_ops c false false).1 ++ L -> v \in G -> symp n r v = 0
  & forall v, span (n + n) ((get_stabilizer_ops c false false).1 ++ G) v <-> span (n + n) (q_mat c) v].
Proof.
move=> ok sub gN n eL lb ed eG lbG; have [wA _ _ _ _] := ok; have hc := dimension_counts ok.
have [wS eS _ _ _] := stab_ops_ok false false ok; rewrite -/n in hc wA wS eS.
set S := (get_stabilizer_ops c false false).1 in wS eS *.
have cd := dual_counts wA wS eS lb hc; have wD := wf_dual wS lb.
have e : d = mkq n (S ++ L) (Some (q_dimension c != 0%N)) by move: ed; rewrite /q_dual eL => -[<-].
have okd : q_ok d.
  rewrite e; apply: q_ok_mk => // -[] /negbFE /eqP k0.
  have [r1 _] := proj1 (countsG _ _ wD (eqmx_refl _)) cd.
  by apply/(commG wD (eqmx_refl _)); apply/eqP; rewrite -mxrank_eq0 r1 k0.
have hd := dimension_counts okd; have [eg _] : q_dimension d = q_gauge_dimension c /\ q_gauge_dimension d = q_dimension c.
  by move: hd; rewrite {1}[in q_n d]e {1}[in q_mat d]e /= => hd; apply: counts_unique hd cd.
have lb' : logical_basis n (q_gauge_dimension c) (S ++ L) G by rewrite -eg; move: lbG; rewrite {2}e.
have [dG hG] := lb'; split=> //.
  by rewrite /q_get_gauge_ops sub gN ed.
by move=> v; rewrite !spanP; have e' := dual_generate wA wS eS lb hc lb'; rewrite e'.
Qed.

(* ---------------------------------------------------------------- CSS codes *)
Lemma bdiag_take n (lx lz : mat) k : wf n lx -> size lx = k -> x_part n (take k (bdiag n n lx lz)) = lx.
Proof.
move=> w s; rewrite /bdiag take_size_cat ?size_map // /x_part -map_comp -[RHS]map_id; apply/eq_in_map => r rl /=.
by rewrite take_size_cat //; move/wfP: w; apply.
Qed.

Lemma bdiag_drop n (lx lz : mat) k : size lx = k -> z_part n (drop k (bdiag n n lx lz)) = lz.
Proof.
move=> s; rewrite /bdiag drop_size_cat ?size_map // /z_part -map_comp -[RHS]map_id; apply/eq_in_map => r rl /=.
by rewrite drop_size_cat // size_nseq.
Qed.

Lemma wf_bdiag_inv n (lx lz : mat) : wf (n + n) (bdiag n n lx lz) -> wf n lx /\ wf n lz.
Proof.
rewrite wf_cat => /andP [/wfP h1 /wfP h2]; split; apply/wfP => r rl.
  have := h1 (r ++ nseq n 0) (map_f _ rl); rewrite size_cat size_nseq; lia.
have := h2 (nseq n 0 ++ r) (map_f _ rl); rewrite size_cat size_nseq; lia.
Qed.

(* get_logical_ops(Pauli.X) and get_logical_ops(Pauli.Z) *)
Lemma c_logicals_pauli (c : csscode F) : c_ok c -> exists lx lz,
  [/\ c_get_logical_ops_pauli c true = Some lx, c_get_logical_ops_pauli c false = Some lz,
      c_get_logical_ops c false = Some (bdiag (c_n c) (c_n c) lx lz), wf (c_n c) lx /\ wf (c_n c) lz
    & logical_basis (c_n c) (c_dimension c) (css_mat (c_n c) (c_x c) (c_z c)) (bdiag (c_n c) (c_n c) lx lz)].
Proof.
move=> ok; have [lx [lz [e s1 s2 lb]]] := c_logicals_ok false ok; exists lx, lz.
have [[sL wL _] _] := lb; have [w1 w2] := wf_bdiag_inv wL.
rewrite /c_get_logical_ops_pauli e sL eqxx (bdiag_take _ w1 s1) (bdiag_drop _ _ s1).
by split.
Qed.

Lemma bdiag_cat n (A B C D : mat) : perm_eq (bdiag n n (A ++ B) (C ++ D)) (bdiag n n A C ++ bdiag n n B D).
Proof. by rewrite /bdiag !map_cat -!catA perm_cat2l perm_catCA. Qed.

Lemma sp_perm n (A B : mat) : perm_eq A B -> (sp n A :=: sp n B)%MS.
Proof.
move=> pe; apply/eqmxP/andP; split; apply/sp_subP => r rA; apply: mem_sp; move: rA; by rewrite (perm_mem pe).
Qed.

Lemma counts_eqmx n (A B : mat) k g : wf (n + n) A -> wf (n + n) B -> (sp (n + n) A :=: sp (n + n) B)%MS ->
  counts n A k g -> counts n B k g.
Proof. by move=> wA wB e /(countsG _ _ wA e) h; apply/(countsG _ _ wB (eqmx_refl _)). Qed.

Lemma c_gauge_typed (c : csscode F) : c_ok c -> c_gauge c = None ->
  let n := c_n c in let A := css_mat n (c_x c) (c_z c) in
  exists gx gz L, let G := bdiag n n gx gz in (size gx = c_gauge_dimension c /\ size gz = c_gauge_dimension c) /\
   [/\ c_get_gauge_ops c = Some G, c_get_logical_ops c false = Some L,
    dual_pairs n (c_gauge_dimension c) G,
    forall r v, r \in (c_get_stabilizer_ops c false false).1 ++ L -> v \in G -> symp n r v = 0
  & forall v, span (n + n) ((c_get_stabilizer_ops c false false).1 ++ G) v <-> span (n + n) A v].
Proof.
move=> ok gN n A; have [okq wX wW hst hl] := ok; have hc := c_counts ok.
have [lx [lz [ex ez eL [wlx wlz] lb]]] := c_logicals_pauli ok.
set S := (c_get_stabilizer_ops c false false).1.
have [wS eS _ _ _] := stab_ops_ok false false okq; rewrite -(proj1 (c_stab_q false false wX wW)) -/S /= in wS eS.
have wA : wf (n + n) A by apply: wf_css.
rewrite -/n -/A in wS eS lb hc wX wW.
case es: (c_sub c); last first.
  exists [::], [::], (bdiag n n lx lz); rewrite /c_get_gauge_ops /c_gauge_dimension es; split=> //; split=> //.
  by move=> v; rewrite cats0 /S /c_get_stabilizer_ops es.
set L := bdiag n n lx lz in eL lb *.
set k := c_dimension c in lb hc *; set g := c_gauge_dimension c in hc *.
have [w1 w2 e1 e2] := c_stab_pauli ok; rewrite -/n in w1 w2 e1 e2 wlx wlz.
have ty : forall t, t \in S -> css_typed n t := @c_stab_typed _ c false false ok.
set sx := c_get_stabilizer_ops_pauli c true in w1 e1; set sz := c_get_stabilizer_ops_pauli c false in w2 e2.
have eSS : (sp (n + n) S :=: sp (n + n) (bdiag n n sx sz))%MS.
  by have [_ _ e] := sp_typed wS ty; apply: eqmx_trans e _; apply: eqmx_sym; exact: sp_css.
set d := mkcss n (sx ++ lx) (sz ++ lz) (Some (k != 0%N)).
have ed : c_dual c = Some d by rewrite /c_dual ex ez.
have wx : wf n (sx ++ lx) by rewrite wf_cat w1.
have wz : wf n (sz ++ lz) by rewrite wf_cat w2.
have wd : wf (n + n) (css_mat n (sx ++ lx) (sz ++ lz)) by apply: wf_css.
have [[_ wL _] _] := lb.
have eD : (sp (n + n) (css_mat n (sx ++ lx) (sz ++ lz)) :=: sp (n + n) (S ++ L))%MS.
  apply: eqmx_trans (sp_perm _ (bdiag_cat n sx lx sz lz)) _.
  apply: eqmx_trans (sp_cat _ _ _) _; apply: eqmx_sym; apply: eqmx_trans (sp_cat _ _ _) _.
  apply: eqmx_trans (eqmx_sym (addsmxE _ _)) (eqmx_trans _ (addsmxE _ _)); exact: adds_eqmx.
have cSL := dual_counts wA wS eS lb hc.
have wSL : wf (n + n) (S ++ L) by rewrite wf_cat wS.
have cd : counts n (css_mat n (sx ++ lx) (sz ++ lz)) g k by apply: counts_eqmx cSL => //; apply: eqmx_sym.
have okd : c_ok d.
  split=> //; split=> //= /negbFE /eqP k0.
  have [r1 _] := proj1 (countsG _ _ wd (eqmx_refl _)) cd.
  by apply/(commG wd (eqmx_refl _)); apply/eqP; rewrite -mxrank_eq0 r1 k0.
have [ed1 ed2] := counts_unique wd (c_counts okd) cd.
have [gx [gz [eG s1 s2 lbG]]] := c_logicals_ok false okd.
rewrite ed1 /= in lbG.
set G := bdiag n n gx gz in lbG.
have lbSL : logical_basis n g (S ++ L) G.
  have [dG hG] := lbG; split=> //; have [_ wG _] := dG.
  apply/(commP wSL wG); have /scompP h := proj1 (commP wd wG) hG.
  by apply/scompP; rewrite -(scomp_eqmx eD).
exists gx, gz, L; split; first by rewrite s1 s2 ed1.
split=> //.
- by rewrite /c_get_gauge_ops es gN ed.
- by have [] := lbSL.
- by have [_ h] := lbSL => r v; apply: h.
- move=> v; rewrite !spanP; have e := dual_generate wA wS eS lb hc lbSL; by rewrite e.
Qed.

Theorem c_gauge_ok (c : csscode F) : c_ok c -> c_gauge c = None ->
  let n := c_n c in let A := css_mat n (c_x c) (c_z c) in
  exists G L, [/\ c_get_gauge_ops c = Some G, c_get_logical_ops c false = Some L,
    dual_pairs n (c_gauge_dimension c) G,
    forall r v, r \in (c_get_stabilizer_ops c false false).1 ++ L -> v \in G -> symp n r v = 0
  & forall v, span (n + n) ((c_get_stabilizer_ops c false false).1 ++ G) v <-> span (n + n) A v].
Proof. by move=> ok gN n A; have [gx [gz [L [_ h]]]] := c_gauge_typed ok gN; exists (bdiag n n gx gz), L. Qed.

(* ---------------------------------------------------------------- valid CSS codes *)
Lemma css_commP n (X W : mat) : wf n X -> wf n W ->
  commuting n (css_mat n X W) <-> sp n X *m (sp n W)^T = 0.
Proof.
move=> wX wW; rewrite (commG (wf_css wX wW) (sp_css wX wW)) gram_block.
split=> [/eqP | e]; first by rewrite -[X in _ == X]block_mx0 => /eqP /eq_block_mx [].
have -> : sp n W *m (sp n X)^T = 0 by rewrite -[LHS]trmxK trmx_mul trmxK e trmx0.
by rewrite e oppr0 block_mx0.
Qed.

Lemma css_manyP n (X W : mat) : wf n X -> wf n W ->
  many (mull (size W) X (trl n W)) = false <-> sp n X *m (sp n W)^T = 0.
Proof.
move=> wX wW.
have e : mx (size X) (size W) (mull (size W) X (trl n W)) = sp n X *m (sp n W)^T.
  by rewrite (mx_mull _ erefl wX (size_trl _ _)) mx_trl.
rewrite -e; split=> [h | h]; first by apply: many_mx0; rewrite ?size_mull ?wf_mull.
by apply/negbTE/(many_mx0P (size_mull _ _ _) (wf_mull _ _ _)).
Qed.

Lemma c_ok_mk n (X W : mat) (sub : option bool) : wf n X -> wf n W ->
  (sub = Some false -> sp n X *m (sp n W)^T = 0) -> c_ok (mkcss n X W sub).
Proof.
move=> wX wW h; split=> //; split=> //=; first exact: wf_css.
case: sub h => [b | _] h /=; first by move=> e; apply/css_commP => //; apply: h; rewrite e.
by apply/css_commP => //; apply/css_manyP.
Qed.

Lemma symp_xx n (u v : vec) : size u = n -> size v = n -> symp n (u ++ nseq n 0) (v ++ nseq n 0) = 0.
Proof.
move=> su sv; rewrite /symp big1 // => j _.
by rewrite !nth_cat su sv !ltn_ord !(ltnNge (n + j)%N) !leq_addr /= !nth_nseq !if_same mulr0 mul0r subr0.
Qed.

Lemma symp_zz n (u v : vec) : symp n (nseq n 0 ++ u) (nseq n 0 ++ v) = 0.
Proof.
rewrite /symp big1 // => j _.
by rewrite !nth_cat !size_nseq !ltn_ord !nth_nseq !ltn_ord mul0r mulr0 subr0.
Qed.

(* set_logical_ops_xz establishes valid logical operators *)
Lemma set_xz_ok (c : csscode F) (lx lz : mat) c' : c_ok c -> wf (c_n c) lx -> wf (c_n c) lz ->
  c_set_logical_ops_xz c lx lz true = Some c' ->
  [/\ c_ok c', c_get_logical_ops c' false = Some (bdiag (c_n c) (c_n c) lx lz),
      size lx = c_dimension c, size lz = c_dimension c
    & logical_basis (c_n c) (c_dimension c) (css_mat (c_n c) (c_x c) (c_z c)) (bdiag (c_n c) (c_n c) lx lz)].
Proof.
move=> ok wx wz; have [okq wX wW hs hl] := ok; have hc := c_counts ok.
rewrite /c_set_logical_ops_xz /c_set_logical_ops.
set L := bdiag _ _ lx lz; have wL : wf (c_n c + c_n c) L by apply: wf_bdiag.
case eq: set_logical_ops => [d|] // [<-].
have [sL h1 h2 ed] := set_logical_ops_ok okq wL eq.
rewrite -(c_dimension_q wX wW) /= in sL h1 h2 ed.
clear eq; set k := c_dimension c in sL h1 h2 ed hc *; set n := c_n c in wx wz wX wW L wL sL h1 h2 ed hs hl hc *.
have sxz : (size lx + size lz = k + k)%N by rewrite -sL size_bdiag.
have nx i : (i < size lx)%N -> nth [::] L i = nth [::] lx i ++ nseq n 0.
  by move=> hi; rewrite /L nth_bdiag ?ltn_addr // hi.
have nz i : (i < size lz)%N -> nth [::] L (size lx + i) = nseq n 0 ++ nth [::] lz i.
  by move=> hi; rewrite /L nth_bdiag ?ltn_add2l // ltnNge leq_addr addKn.
have one : (1 : F) <> 0 by apply/eqP; rewrite oner_eq0.
have ex : size lx = k.
  case: (ltngtP (size lx) k) => // lt; exfalso; apply: one.
    have := h1 _ _ lt lt; rewrite eqxx mulr1n => <-.
    have e0 : (k + size lx = size lx + (0 + k))%N by rewrite addnC.
    rewrite e0 nz; last by move: sxz lt; clear; lia.
    have := @nz 0%N; rewrite addn0 => -> //; last by move: sxz lt; clear; lia.
    exact: symp_zz.
  have k0 : (0 < k)%N by move: sxz lt; clear; lia.
  have := h1 _ _ k0 k0; rewrite eqxx addn0 mulr1n => <-.
  rewrite !nx //; last by apply: ltn_trans lt.
  apply: symp_xx; apply: wf_nth => //; exact: ltn_trans lt.
have ez : size lz = k by move: sxz; rewrite ex; clear; lia.
have nz' j : (j < size lz)%N -> nth [::] L (k + j) = nseq n 0 ++ nth [::] lz j by move=> hj; rewrite -ex nz.
have dl : css_dual n k (c_x c) (c_z c) lx lz.
  have /scompP : sp (n + n) (css_mat n (c_x c) (c_z c)) *m symJ F n *m (sp (n + n) L)^T = 0.
    by apply/commP => //; apply: wf_css.
  rewrite (scomp_eqmx (sp_css wX wW)) (sp_css wx wz) => /scompP; rewrite gram_block.
  move/eqP; rewrite -[X in _ == X]block_mx0 => /eqP /eq_block_mx [_ e1 e2 _].
  split=> //; rewrite -?[in mx _ n lx]ex -?[in mx _ n lz]ez.
  - by apply: trmx_inj; rewrite trmx_mul trmxK trmx0; apply/eqP; rewrite -oppr_eq0; apply/eqP; move: e2; rewrite /sp ex.
  - by apply: trmx_inj; rewrite trmx_mul trmxK trmx0; move: e1; rewrite /sp ez.
  apply/matrixP => i j; have hi : (i < size lx)%N by rewrite ex.
  have hj : (j < size lz)%N by rewrite ez.
  rewrite [RHS]mxE -val_eqE /= -(h1 i j (ltn_ord i) (ltn_ord j)) nx // nz' //.
  rewrite mxE /symp; apply: eq_bigr => t _; rewrite !mxE /ent !nth_cat (wf_nth wx hi) !size_nseq.
  by rewrite ltn_ord !(ltnNge (n + t)%N) !leq_addr /= addKn !nth_nseq !if_same mul0r subr0.
have lb := css_dual_basis wX wW dl.
split=> //; last by rewrite ed /c_get_logical_ops.
have [w1 w2 w3 w4 w5] := okq; rewrite ed; split=> //=.
  split=> //= [l [<-] | k' [<-]]; first by exists k, (c_gauge_dimension c).
  by exists (c_gauge_dimension c).
by move=> l [<-]; exists lx, lz; rewrite ex ez.
Qed.
End Gauge.
