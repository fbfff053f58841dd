(* Proofs about tensor products, stacking, puncturing, shortening and set_generator of classical codes. *)
From mathcomp Require Import all_ssreflect all_algebra zify.
From mathcomp Require Import mxtens.
From Verif Require Import LinAlg RowReduce Kron Classical ClassicalProofs.
Set Implicit Arguments.
Unset Strict Implicit.
Unset Printing Implicit Defensive.
Import GRing.Theory.
Local Open Scope ring_scope.

Section Proofs.
Variable F : fieldType.
Notation vec := (seq F).
Notation mat := (seq (seq F)).

(* ------------------------------------------------------------------ spans *)
Lemma combP n (G : mat) (v : vec) : size v = n -> (exists c, is_comb n G c v) <-> (rv n v <= sp n G)%MS.
Proof.
move=> sv; split=> [[c hc] | /submxP [D e]].
  by have [sc _ _] := hc; move/(is_combE sc sv): hc => ->; apply: submxMl.
by exists (lrv D); apply/is_combE; rewrite ?size_lrv // rv_lrv.
Qed.

Lemma generator_mk n (H : mat) : generator (mkcode n H) = null_space n H.
Proof. by []. Qed.

(* --------------------------------------------------------------- objects *)
Lemma mkcode_ok n (H : mat) : wf n H -> code_ok (mkcode n H).
Proof. by []. Qed.

Lemma gen_basis (c : ccode F) : code_ok c -> is_basis (cc_n c) (cc_mat c) (generator c).
Proof.
case: c => n H g d [] /= wH hg _; rewrite /generator /=.
by case: g hg => [g /(_ g erefl) | _] //; apply: null_basis.
Qed.

Lemma dim_ok (c : ccode F) : code_ok c -> dimension c = (cc_n c - \rank (sp (cc_n c) (cc_mat c)))%N.
Proof.
case: c => n H g d [] /= wH _ hd; rewrite /dimension /rank /=.
by case: d hd => [d /(_ d erefl) /(has_dimE _ wH) // | _]; rewrite size_canon.
Qed.

Lemma rank_ok (c : ccode F) : code_ok c -> rank c = \rank (sp (cc_n c) (cc_mat c)).
Proof.
case: c => n H g d [] /= wH _ hd; rewrite /rank /=.
case: d hd => [d /(_ d erefl) /(has_dimE _ wH) -> | _]; last by rewrite size_canon.
by rewrite subKn // rank_leq_col.
Qed.

Lemma dim_gen (c : ccode F) : code_ok c -> dimension c = size (generator c).
Proof. by move=> ok; rewrite dim_ok // (basis_size (gen_basis ok)). Qed.

Lemma word_span n (H G : mat) (w : vec) : is_basis n H G -> size w = n -> is_word n H w <-> (rv n w <= sp n G)%MS.
Proof.
move=> b sw; have [_ e] := basis_elim (basis_wf b) b; rewrite e; split=> [h | /sub_kermxP h].
  by apply/sub_kermxP/(is_wordE _ sw).
exact/(is_wordE _ sw).
Qed.

Lemma rref_spec_ok n (A : mat) : is_rref n A -> rref_spec n A.
Proof.
move=> rA; have [wA nz srt piv] := rA; exists (first_nonzero_cols A); split.
- by rewrite size_map.
- by move=> i lt_i; rewrite (nth_map [::]) //; apply: rref_first_lt.
- by move=> i j /andP [ij lt_j]; rewrite !(nth_map [::]) ?(ltn_trans ij) //; apply: srt; rewrite ij.
- by move=> i c lt_i; rewrite (nth_map [::]) //; apply: (rref_lead_row rA).
by move=> i k lt_i lt_k; rewrite [nth 0%N _ _](nth_map [::]) //; apply: piv.
Qed.

(* --------------------------------------------------------- tensor product *)
Lemma tensmx11 (R : ringType) m n : (1%:M : 'M[R]_m) *t (1%:M : 'M[R]_n) = 1%:M.
Proof.
apply/matrixP => i j; case: (mxtens_indexP i) => i1 i2; case: (mxtens_indexP j) => j1 j2.
rewrite tensmxE !mxE (inj_eq (can_inj (@mxtens_indexK m n))) xpair_eqE -natrM mulnb //.
Qed.

Lemma row_free_tens ka kb na nb (A : 'M[F]_(ka, na)) (B : 'M[F]_(kb, nb)) :
  row_free A -> row_free B -> row_free (A *t B).
Proof.
move=> /row_freeP [A' eA] /row_freeP [B' eB]; apply/row_freeP; exists (A' *t B').
by rewrite tensmx_mul eA eB tensmx11.
Qed.

Lemma tens_span ka kb na nb (A : 'M[F]_(ka, na)) (B : 'M[F]_(kb, nb)) (w : 'rV[F]_(na * nb)) :
  (w <= A *t B)%MS = ((unvec w)^T <= A)%MS && (unvec w <= B)%MS.
Proof.
apply/submxP/andP => [[c ->] | [hA hB]].
  rewrite unvec_mul; split; last exact: submxMl.
  by rewrite !trmx_mul trmxK mulmxA submxMl.
exists (tovec ((pinvmx A)^T *m unvec w *m pinvmx B)).
move: (pinvmx A) (pinvmx B) (mulmxKpV hA) (mulmxKpV hB) => A' B' eA eB.
apply: unvec_inj; rewrite unvec_mul tovecK !mulmxA -trmx_mul.
have e1 : (A' *m A)^T *m unvec w = unvec w.
  by apply: trmx_inj; rewrite trmx_mul trmxK mulmxA.
by rewrite e1.
Qed.

Lemma row_unvec_rv na nb (w : vec) (i : 'I_na) : size w = (na * nb)%N ->
  row i (unvec (rv (na * nb) w)) = rv nb [seq nth 0 w (i * nb + j) | j <- iota 0 nb].
Proof.
move=> sw; apply/rowP => j; rewrite !mxE (nth_map 0%N) ?size_iota // nth_iota //.
Qed.

Lemma col_unvec_rv na nb (w : vec) (j : 'I_nb) : size w = (na * nb)%N ->
  row j (unvec (rv (na * nb) w))^T = rv na [seq nth 0 w (i * nb + j) | i <- iota 0 na].
Proof.
move=> sw; apply/rowP => i; rewrite !mxE (nth_map 0%N) ?size_iota // nth_iota //.
Qed.

Lemma tensor_words (a b : ccode F) (w : vec) : code_ok a -> code_ok b -> size w = (cc_n a * cc_n b)%N ->
  is_word (cc_n a * cc_n b) (cc_mat (tensor_product a b)) w <->
  (forall j, (j < cc_n b)%N -> is_word (cc_n a) (cc_mat a) [seq nth 0 w (i * cc_n b + j) | i <- iota 0 (cc_n a)]) /\
  (forall i, (i < cc_n a)%N -> is_word (cc_n b) (cc_mat b) [seq nth 0 w (i * cc_n b + j) | j <- iota 0 (cc_n b)]).
Proof.
move=> oka okb; rewrite /tensor_product.
have := gen_basis oka; have := gen_basis okb.
move: (generator a) (generator b) (cc_mat a) (cc_mat b) (cc_n a) (cc_n b) => Ga Gb Ha Hb na nb bb ba sw.
have wGa := basis_wf ba; have wGb := basis_wf bb.
have wK : wf (na * nb) (kron Ga Gb) by apply: wf_kron.
have := from_generator_words wK sw => ->; rewrite (combP _ sw).
have eK : (sp (na * nb) (kron Ga Gb) :=: sp na Ga *t sp nb Gb)%MS.
  rewrite /sp size_kron mx_kron //; exact: eqmx_refl.
rewrite eK tens_span; split.
  case/andP => hA hB; split=> [j lt_j | i lt_i].
    have sz : size [seq nth 0 w (i * nb + j) | i <- iota 0 na] = na by rewrite size_map size_iota.
    apply/(word_span ba sz); rewrite -(col_unvec_rv (Ordinal lt_j)) //.
    exact: submx_trans (row_sub _ _) hA.
  have sz : size [seq nth 0 w (i * nb + j) | j <- iota 0 nb] = nb by rewrite size_map size_iota.
  apply/(word_span bb sz); rewrite -(row_unvec_rv (Ordinal lt_i)) //.
  exact: submx_trans (row_sub _ _) hB.
case=> hA hB; apply/andP; split; apply/row_subP => i.
  have sz : size [seq nth 0 w (i0 * nb + i) | i0 <- iota 0 na] = na by rewrite size_map size_iota.
  rewrite col_unvec_rv //; apply/(word_span ba sz); exact: hA.
have sz : size [seq nth 0 w (i * nb + j) | j <- iota 0 nb] = nb by rewrite size_map size_iota.
rewrite row_unvec_rv //; apply/(word_span bb sz); exact: hB.
Qed.

Lemma dimension_from_generator n (G : mat) : wf n G -> dimension (from_generator n G) = \rank (sp n G).
Proof.
move=> wG; rewrite dimension_mk ?wf_null_space //.
have [_ e] := null_space_spec wG; rewrite e mxrank_ker mxrank_tr subKn // rank_leq_col //.
Qed.

Lemma tensor_dimension (a b : ccode F) : code_ok a -> code_ok b ->
  dimension (tensor_product a b) = (dimension a * dimension b)%N.
Proof.
move=> oka okb; rewrite (dim_gen oka) (dim_gen okb).
have -> : tensor_product a b = from_generator (cc_n a * cc_n b) (kron (generator a) (generator b)) by [].
have := gen_basis oka; have := gen_basis okb.
move: (generator a) (generator b) (cc_mat a) (cc_mat b) (cc_n a) (cc_n b) => Ga Gb Ha Hb na nb bb ba.
have wGa := basis_wf ba; have wGb := basis_wf bb.
rewrite dimension_from_generator; last exact: wf_kron.
have [fa _] := basis_elim wGa ba; have [fb _] := basis_elim wGb bb.
rewrite /sp size_kron mx_kron //; apply/eqP; rewrite -/(row_free _); exact: row_free_tens.
Qed.

(* ------------------------------------------------------------------ stack *)
Lemma bdiag_words n p (A B : mat) (w : vec) : wf n A -> wf p B ->
  is_word (n + p) (bdiag n p A B) w <->
  [/\ size w = (n + p)%N, is_word n A (take n w) & is_word p B (drop n w)].
Proof.
move=> wA wB.
have sumA r : r \in A -> size w = (n + p)%N ->
  \sum_(j < n + p) nth 0 (r ++ nseq p 0) j * nth 0 w j = \sum_(j < n) nth 0 r j * nth 0 (take n w) j.
  move=> rA sw; have sr : size r = n by move/wfP: wA; apply.
  rewrite big_split_ord /= [X in _ + X]big1 ?addr0; last first.
    by move=> j _; rewrite nth_cat sr ltnNge leq_addr /= nth_nseq if_same mul0r.
  by apply: eq_bigr => j _; rewrite nth_cat sr ltn_ord nth_take.
have sumB r : r \in B -> size w = (n + p)%N ->
  \sum_(j < n + p) nth 0 (nseq n 0 ++ r) j * nth 0 w j = \sum_(j < p) nth 0 r j * nth 0 (drop n w) j.
  move=> rB sw; rewrite big_split_ord /= [X in X + _]big1 ?add0r; last first.
    by move=> j _; rewrite nth_cat size_nseq ltn_ord nth_nseq if_same mul0r.
  by apply: eq_bigr => j _; rewrite nth_cat size_nseq ltnNge leq_addr /= addKn nth_drop.
split.
  case=> sw h; split=> //.
    split=> [|r rA]; first by rewrite size_takel // sw leq_addr.
    by rewrite -sumA // h // mem_cat (map_f (fun r => r ++ nseq p 0)).
  split=> [|r rB]; first by rewrite size_drop sw addKn.
  by rewrite -sumB // h // mem_cat (map_f (fun r => nseq n 0 ++ r)) ?orbT.
case=> sw [_ hA] [_ hB]; split=> // r; rewrite mem_cat => /orP [] /mapP [s sin ->].
  by rewrite sumA // hA.
by rewrite sumB // hB.
Qed.

Definition wfs (cs : seq (nat * mat)) := all (fun p => wf p.1 p.2) cs.

Lemma wf_block_diag (cs : seq (nat * mat)) : wfs cs -> wf (sumn [seq p.1 | p <- cs]) (block_diag cs).
Proof. by elim: cs => [|[n A] cs IH] //= /andP [wA /IH wc]; apply: wf_bdiag. Qed.

Lemma stack_words (cs : seq (nat * mat)) (w : vec) : wfs cs ->
  is_word (sumn [seq p.1 | p <- cs]) (block_diag cs) w <->
  exists ws, [/\ size ws = size cs, w = flatten ws
             & forall i, (i < size cs)%N ->
                 is_word (nth (0%N, [::]) cs i).1 (nth (0%N, [::]) cs i).2 (nth [::] ws i)].
Proof.
elim: cs w => [|[n A] cs IH] w /=.
  move=> _; split=> [[/size0nil -> _] | [ws [/size0nil -> ->]]]; first by exists [::].
  by [].
case/andP => wA wc; rewrite bdiag_words //; last exact: wf_block_diag.
split.
  case=> sw hA /(IH _ wc) [ws [sz e h]].
  exists (take n w :: ws); split; rewrite /= ?sz // -?e ?cat_take_drop //.
  by case=> [|i] //=; rewrite ltnS; apply: h.
case=> [[|u ws]] [] //= [sz] -> h.
have hu := h 0%N isT; have su : size u = n by case: hu.
have hcs : is_word (sumn [seq p.1 | p <- cs]) (block_diag cs) (flatten ws).
  by apply/(IH _ wc); exists ws; split=> // i lt_i; apply: (h i.+1).
split; first by rewrite size_cat su; case: hcs => ->.
  by rewrite take_size_cat.
by rewrite drop_size_cat.
Qed.

Lemma rank_block_diag (cs : seq (nat * mat)) : wfs cs ->
  \rank (sp (sumn [seq p.1 | p <- cs]) (block_diag cs)) = sumn [seq \rank (sp p.1 p.2) | p <- cs].
Proof.
elim: cs => [|[n A] cs IH] /=; first by rewrite /sp flatmx0 mxrank0.
case/andP => wA wc; rewrite -IH //; have wB := wf_block_diag wc.
by rewrite /sp size_bdiag mx_bdiag // rank_diag_block_mx.
Qed.

Definition dflt : ccode F := mkcode 0 [::].

Lemma stack_words' (cs : seq (ccode F)) (w : vec) : (forall i, (i < size cs)%N -> code_ok (nth dflt cs i)) ->
  is_word (cc_n (stack cs)) (cc_mat (stack cs)) w <->
  exists ws, [/\ size ws = size cs, w = flatten ws
             & forall i, (i < size cs)%N ->
                 is_word (cc_n (nth dflt cs i)) (cc_mat (nth dflt cs i)) (nth [::] ws i)].
Proof.
move=> ok; pose ps := [seq (cc_n c, cc_mat c) | c <- cs].
have wps : wfs ps.
  by apply/(all_nthP (0%N, [::])) => i; rewrite size_map => lt_i; rewrite (nth_map dflt) //=; case: (ok i lt_i).
have en : sumn [seq p.1 | p <- ps] = sumn [seq cc_n c | c <- cs] by rewrite -map_comp.
have := stack_words w wps; rewrite en size_map /stack /= => ->.
by split=> -[ws [sz ew h]]; exists ws; split=> // i lt_i; have := h i lt_i; rewrite (nth_map dflt).
Qed.

Lemma stack_dimension (cs : seq (ccode F)) : (forall i, (i < size cs)%N -> code_ok (nth dflt cs i)) ->
  dimension (stack cs) = sumn [seq dimension c | c <- cs].
Proof.
move=> ok; pose ps := [seq (cc_n c, cc_mat c) | c <- cs].
have wps : wfs ps.
  by apply/(all_nthP (0%N, [::])) => i; rewrite size_map => lt_i; rewrite (nth_map dflt) //=; case: (ok i lt_i).
have en : sumn [seq p.1 | p <- ps] = sumn [seq cc_n c | c <- cs] by rewrite -map_comp.
have rk := rank_block_diag wps; have wb := wf_block_diag wps; rewrite en in rk wb.
rewrite dimension_mk // rk /ps -map_comp /=.
elim: cs ok {ps wps en rk wb} => [|c cs IH] //= ok; rewrite -IH; last by move=> i; apply: (ok i.+1).
have okc : code_ok c := ok 0%N isT.
rewrite dim_ok //.
have le1 := rank_leq_col (sp (cc_n c) (cc_mat c)).
have : (sumn [seq \rank (sp (cc_n c) (cc_mat c)) | c <- cs] <= sumn [seq cc_n c | c <- cs])%N.
  by elim: cs {IH ok} => //= d cs IH; apply: leq_add => //; apply: rank_leq_col.
by move: le1; set a := sumn _; set b := sumn _; set r := \rank _; lia.
Qed.

Lemma hwt_flatten (ws : seq vec) : hwt (flatten ws) = sumn [seq hwt w | w <- ws].
Proof. by elim: ws => //= w ws IH; rewrite /hwt count_cat -/(hwt w) -IH. Qed.

Lemma nz_hwt (w : vec) : (exists j, nth 0 w j <> 0) <-> (0 < hwt w)%N.
Proof.
rewrite /hwt -has_count; split=> [[j /eqP h] | /hasP [x /(nthP 0) [j _ <-] /eqP h]]; last by exists j.
by apply: vany_nth h.
Qed.

Lemma hwt_vzero n : hwt (vzero F n) = 0%N.
Proof. by rewrite /hwt count_nseq eqxx. Qed.

Lemma zero_word n (H : mat) : is_word n H (vzero F n).
Proof.
split; first by rewrite size_vzero.
by move=> r _; rewrite big1 // => j _; rewrite nth_nseq if_same mulr0.
Qed.

Lemma stack_embed (cs : seq (ccode F)) i u : (forall i, (i < size cs)%N -> code_ok (nth dflt cs i)) ->
  (i < size cs)%N -> is_word (cc_n (nth dflt cs i)) (cc_mat (nth dflt cs i)) u ->
  exists2 w, is_word (cc_n (stack cs)) (cc_mat (stack cs)) w & hwt w = hwt u.
Proof.
move=> ok lt_i hu.
pose ws := mkseq (fun j => if j == i then u else vzero F (cc_n (nth dflt cs j))) (size cs).
exists (flatten ws).
  apply/stack_words' => //; exists ws; split; rewrite ?size_mkseq // => j lt_j; rewrite nth_mkseq //.
  by case: eqP => [-> // | _]; apply: zero_word.
rewrite hwt_flatten /ws -map_comp sumnE big_map -(mkseq_nth 0%N (iota 0 (size cs))) size_iota.
rewrite /mkseq !big_map (bigD1_seq i) ?iota_uniq ?mem_iota //=.
rewrite nth_iota // add0n eqxx big_seq_cond big1 ?addn0 // => j; rewrite mem_iota add0n => /andP [lt_j ne].
by rewrite nth_iota // add0n (negbTE ne) hwt_vzero.
Qed.

Lemma stack_dist (cs : seq (ccode F)) d : (forall i, (i < size cs)%N -> code_ok (nth dflt cs i)) ->
  is_dist (cc_n (stack cs)) (cc_mat (stack cs)) d <->
  (exists2 i, (i < size cs)%N & is_dist (cc_n (nth dflt cs i)) (cc_mat (nth dflt cs i)) d) /\
  (forall i e, (i < size cs)%N -> is_dist (cc_n (nth dflt cs i)) (cc_mat (nth dflt cs i)) e -> (d <= e)%N).
Proof.
move=> ok; split.
  case=> [[w [hw /nz_hwt nzw dw]] hmin].
  have emb i u : (i < size cs)%N -> is_word (cc_n (nth dflt cs i)) (cc_mat (nth dflt cs i)) u -> (0 < hwt u)%N -> (d <= hwt u)%N.
    move=> lt_i hu nzu; have [x hx ex] := stack_embed ok lt_i hu.
    by rewrite -ex; apply: hmin => //; apply/nz_hwt; rewrite ex.
  split; last first.
    by move=> i e lt_i [[u [hu /nz_hwt nzu <-]] _]; apply: emb lt_i hu nzu.
  have [ws [sz ew hws]] := proj1 (stack_words' w ok) hw.
  have hs : has (fun u => 0 < hwt u)%N ws.
    rewrite -(negbK (has _ ws)) -all_predC; apply/negP => /allP h.
    move: nzw; rewrite ew hwt_flatten sumnE big_map big_seq big1 // => u uin.
    by apply/eqP; rewrite eqn0Ngt; apply: h.
  case/hasP: hs => u /(nthP [::]) [i lt_i <-] nzu; rewrite sz in lt_i; exists i => //.
  have hu := hws i lt_i.
  split.
    exists (nth [::] ws i); split=> //; first exact/nz_hwt.
    apply/eqP; rewrite eqn_leq (emb i) // andbT -dw ew hwt_flatten sumnE.
    by rewrite (big_nth 0%N) big_mkord size_map (bigD1 (Ordinal (eq_ind_r (fun k => i < k)%N lt_i sz))) //= (nth_map [::]) ?sz // leq_addr.
  by move=> x hx /nz_hwt nzx; apply: (emb i).
case=> [[i lt_i [[u [hu /nz_hwt nzu du]] _]] hmin].
split.
  have [x hx ex] := stack_embed ok lt_i hu; exists x; split=> //; last by rewrite ex.
  by apply/nz_hwt; rewrite ex.
have low j : (j < size cs)%N -> forall k x, (hwt x <= k)%N -> is_word (cc_n (nth dflt cs j)) (cc_mat (nth dflt cs j)) x -> (0 < hwt x)%N -> (d <= hwt x)%N.
  move=> lt_j; elim=> [|k IH] x; first by rewrite leqn0 => /eqP ->.
  move=> le_x hx nzx; rewrite leqNgt; apply/negP => lt_d.
  suff : (d <= hwt x)%N by rewrite leqNgt lt_d.
  apply: (hmin j) => //; split; first by exists x; split=> //; apply/nz_hwt.
  move=> y hy /nz_hwt nzy; rewrite leqNgt; apply/negP => lt_y.
  have : (d <= hwt y)%N by apply: IH => //; rewrite -ltnS; apply: leq_trans le_x.
  by rewrite leqNgt (ltn_trans lt_y lt_d).
move=> w hw /nz_hwt nzw; have [ws [sz ew hws]] := proj1 (stack_words' w ok) hw.
have hs : has (fun u => 0 < hwt u)%N ws.
  rewrite -(negbK (has _ ws)) -all_predC; apply/negP => /allP h.
  move: nzw; rewrite ew hwt_flatten sumnE big_map big_seq big1 // => x xin.
  by apply/eqP; rewrite eqn0Ngt; apply: h.
case/hasP: hs => x /(nthP [::]) [j lt_j <-] nzx; rewrite sz in lt_j.
apply: leq_trans (low j lt_j _ _ (leqnn _) (hws j lt_j) nzx) _.
rewrite ew hwt_flatten sumnE.
by rewrite (big_nth 0%N) big_mkord size_map (bigD1 (Ordinal (eq_ind_r (fun k => j < k)%N lt_j sz))) //= (nth_map [::]) ?sz // leq_addr.
Qed.

(* -------------------------------------------------------------------- dual *)
Lemma dual_words_ok (c : ccode F) (w : vec) : code_ok c -> size w = cc_n c ->
  is_word (cc_n c) (cc_mat (dual c)) w <->
  (forall y, is_word (cc_n c) (cc_mat c) y -> \sum_(j < cc_n c) nth 0 w j * nth 0 y j = 0).
Proof.
move=> ok; rewrite /dual /=; have := gen_basis ok.
move: (generator c) (cc_mat c) (cc_n c) => G H n b sw; have wG := basis_wf b.
split=> [[_ h] y hy | h].
  have sy : size y = n by case: hy.
  have /submxP [D e] := proj1 (word_span b sy) hy.
  have /(is_wordE _ sw) h0 : is_word n G w by split.
  have : rv n w *m (rv n y)^T = 0 by rewrite e trmx_mul mulmxA h0 mul0mx.
  move/matrixP/(_ 0 0); rewrite !mxE => e'; rewrite -[RHS]e'.
  by apply: eq_bigr => j _; rewrite !mxE.
split=> // r rN; have [bw _ _] := b.
by rewrite -[RHS](h _ (bw _ rN)); apply: eq_bigr => j _; rewrite mulrC.
Qed.

Lemma dual_ok (c : ccode F) : code_ok c -> code_ok (dual c).
Proof. by move=> ok; apply: mkcode_ok; apply: basis_wf (gen_basis ok). Qed.

Lemma dual_dual (c : ccode F) : code_ok c -> equiv (dual (dual c)) c.
Proof.
move=> ok; have b := gen_basis ok; have wG := basis_wf b; have [wH _ _] := ok.
have [_ e] := basis_elim wG b.
suff : equiv (mkcode (cc_n c) (null_space (cc_n c) (generator c))) (mkcode (cc_n c) (cc_mat c)) by [].
apply/equivP => //; first exact: wf_null_space.
split=> // w; suff h : size w = cc_n c -> is_word (cc_n c) (null_space (cc_n c) (generator c)) w <-> is_word (cc_n c) (cc_mat c) w.
  by split=> hw; (have sw : size w = cc_n c by case: hw); apply/h.
move=> sw; have := from_generator_words wG sw; rewrite [cc_mat _]/= => ->.
by rewrite (combP _ sw) (word_span b sw).
Qed.

Lemma dual_dim (c : ccode F) : code_ok c -> (dimension c + dimension (dual c))%N = cc_n c.
Proof.
move=> ok; have b := gen_basis ok; have wG := basis_wf b; have [fr _] := basis_elim wG b.
rewrite (dim_ok (dual_ok ok)) /= dim_gen //; move/eqP: (fr) => ->.
by apply: subnKC; rewrite -(eqP fr) rank_leq_col.
Qed.

(* --------------------------------------------------------------- puncture *)
Lemma rv_vsel n (cols : seq nat) (v : vec) : size v = n ->
  rv (size cols) (vsel cols v) = rv n v *m selmx F n (size cols) cols.
Proof.
move=> sv; apply/rowP => k; rewrite mxE (nth_map 0%N) //.
case: (ltnP (nth 0%N cols k) n) => [lt_j | ge_j].
  by rewrite (@mulmx_selmx _ _ _ _ _ _ _ k (Ordinal lt_j)) // mxE.
rewrite nth_default ?sv // mxE big1 // => j _; rewrite !mxE.
by case: eqP => [e | _]; rewrite ?mulr0 //; move: (ltn_ord j); rewrite e ltnNge ge_j.
Qed.

Lemma sp_selcols n (cols : seq nat) (G : mat) : wf n G ->
  mx (size G) (size cols) (selcols cols G) = sp n G *m selmx F n (size cols) cols.
Proof.
move=> wG; apply/row_matrixP => i; rewrite row_of_mx row_mul row_of_mx (nth_map [::]) //.
by apply: rv_vsel; apply: wf_nth.
Qed.

Lemma selcols_comb n (cols : seq nat) (G : mat) (w : vec) : wf n G -> size w = size cols ->
  (exists c, is_comb (size cols) (selcols cols G) c w) <->
  (exists v, [/\ size v = n, exists c, is_comb n G c v & w = vsel cols v]).
Proof.
move=> wG sw; rewrite (combP _ sw).
have -> : (rv (size cols) w <= sp (size cols) (selcols cols G))%MS =
          (rv (size cols) w <= sp n G *m selmx F n (size cols) cols)%MS.
  by rewrite -sp_selcols // /sp size_selcols.
split=> [/submxP [D e] | [v [sv /(combP _ sv) /submxP [D e] ->]]].
  exists (lrv (D *m sp n G)); split; first by rewrite size_lrv.
    by apply/combP; rewrite ?size_lrv // rv_lrv submxMl.
  apply: (@rv_inj _ (size cols)); rewrite ?size_vsel //.
  by rewrite (rv_vsel cols (size_lrv _)) rv_lrv e mulmxA.
by rewrite (rv_vsel cols sv) e -mulmxA submxMl.
Qed.

Lemma puncture_words (c : ccode F) (bits : seq nat) (w : vec) : code_ok c ->
  size w = size (bits_to_keep (cc_n c) bits) ->
  is_word (size w) (cc_mat (puncture c bits)) w <->
  exists x, is_word (cc_n c) (cc_mat c) x /\ w = [seq nth 0 x j | j <- iota 0 (cc_n c) & j \notin bits].
Proof.
move=> ok sw; rewrite /puncture; have b := gen_basis ok; have wG := basis_wf b.
rewrite sw from_generator_words //; last exact: wf_selcols.
rewrite (@selcols_comb (cc_n c)) //.
split=> [[v [sv /(combP _ sv) hv ->]] | [x [hx ->]]].
  by exists v; split=> //; apply/(word_span b sv).
have sx : size x = cc_n c by case: hx.
by exists x; split=> //; apply/(combP _ sx)/(word_span b sx).
Qed.

(* ---------------------------------------------------------------- shorten *)
Definition del (b : nat) (v : vec) : vec := take b v ++ drop b.+1 v.

Lemma size_del b v : (b < size v)%N -> size (del b v) = (size v).-1.
Proof. by move=> h; rewrite size_cat size_drop size_takel ?(ltnW h) //; lia. Qed.

Lemma nth_del b v j : (b < size v)%N -> nth 0 (del b v) j = nth 0 v (if (j < b)%N then j else j.+1).
Proof.
move=> h; rewrite nth_cat size_takel ?(ltnW h) //; case: ltnP => [lt | ge]; first by rewrite nth_take.
by rewrite nth_drop addSn subnKC.
Qed.

(* the span of a reduced matrix, restricted to vectors that vanish in column 0 *)
Lemma rref_drop_first n (A : mat) : is_rref n A -> (0 < n)%N ->
  (exists v, [/\ size v = n, (rv n v <= sp n A)%MS & nth 0 v 0 != 0]) ->
  forall v, size v = n ->
  (rv n v <= sp n (behead A))%MS <-> (rv n v <= sp n A)%MS /\ nth 0 v 0 = 0.
Proof.
move=> rA n0 [u [su spu nzu]]; have [wA nz srt piv] := rA.
have [i lt_i fi] : exists2 i, (i < size A)%N & first_nz (nth [::] A i) = 0%N.
  by apply: (@rref_lead _ _ _ _ (Ordinal n0) rA spu) => //; rewrite mxE.
have i0 : i = 0%N.
  case: i lt_i fi => // i lt_i fi; have := srt 0%N i.+1; rewrite fi lt_i => /(_ isT).
  by rewrite ltn0.
subst i; case: A rA wA nz srt piv spu lt_i fi => //= a A rA wA nz srt piv spu _ fa.
have z r : r \in A -> nth 0 r 0 = 0.
  case/(nthP [::]) => k lt_k <-; have := piv k.+1 0%N; rewrite /= fa /ent /=; exact.
have a1 : nth 0 a 0 = 1 by have := piv 0%N 0%N isT isT; rewrite /= fa /ent /=.
move=> v sv; split.
  move=> hv; split.
    apply: submx_trans hv _; apply/sp_subP => r rin; apply: (@mem_sp F n (a :: A) r); by rewrite inE rin orbT.
  move/submxP: hv => [D e]; have := congr1 (fun M : 'rV[F]_n => M 0 (Ordinal n0)) e.
  rewrite !mxE => ->; rewrite big1 // => k _; rewrite mxE /ent /= z ?mulr0 //; exact: mem_nth.
case; rewrite sp_cons => /sub_addsmxP [[x y] /= e] v0.
have [c ex] : exists c, x = c%:M by exists (x 0 0); apply: mx11_scalar.
have y0 : (y *m sp n A) 0 (Ordinal n0) = 0.
  rewrite mxE big1 // => k _; rewrite mxE /ent /= z ?mulr0 //; exact: mem_nth.
have c0 : c = 0.
  have := congr1 (fun M : 'rV[F]_n => M 0 (Ordinal n0)) e.
  by rewrite mxE v0 mxE y0 addr0 ex mul_scalar_mx !mxE /= a1 mulr1.
by rewrite e ex c0 raddf0 mul0mx add0r submxMl.
Qed.

Lemma behead_rr n (A : mat) : wf n A ->
  forall v, size v = n -> (rv n v <= sp n (behead (row_reduce n A)))%MS = (rv n v <= sp n (behead (canon n A)))%MS.
Proof.
move=> wA v sv; rewrite row_reduce_canon //.
case e : (canon n A) => [|a C] /=.
  have -> k : behead (nseq k (vzero F n)) = nseq k.-1 (vzero F n) by case: k.
  rewrite sp_zeros; have -> : sp n ([::] : mat) = 0 by apply/matrixP => -[].
  by apply/idP/idP => /submx_trans; apply; apply: sub0mx.
rewrite sp_cat sp_zeros.
suff e' : (col_mx (sp n C) (0 : 'M_(size (nseq (size A - (size C).+1) (vzero F n)), n)) :=: sp n C)%MS by rewrite e'.
by apply/eqmxP; rewrite col_mx_sub submx_refl sub0mx /= -addsmxE addsmxSl.
Qed.

Lemma rv_behead n (v : vec) : size v = n.+1 -> nth 0 v 0 = 0 -> v = 0 :: behead v.
Proof. by case: v => //= x v _ ->. Qed.

(* spans of rows with a leading zero *)
Lemma sp_behead n (A : mat) (w : vec) : wf n.+1 A -> (forall r, r \in A -> nth 0 r 0 = 0) -> size w = n ->
  (rv n w <= sp n [seq behead r | r <- A])%MS <-> (rv n.+1 (0 :: w) <= sp n.+1 A)%MS.
Proof.
move=> wA z sw.
have sw' : size (0 :: w) = n.+1 by rewrite /= sw.
rewrite -(combP _ sw) -(combP _ sw'); split=> [] [c [sc _ h]]; exists c.
  split; rewrite // -?sc ?size_map //; first by rewrite sc size_map.
  case=> [|j] lt_j /=.
    by rewrite big1 // => i _; rewrite z ?mulr0 //; apply: mem_nth.
  have lt_j' : (j < n)%N by [].
  rewrite (h j lt_j') size_map; apply: eq_bigr => i _; rewrite (nth_map [::]) // nth_behead //.
split; rewrite ?size_map // => j lt_j; have := h j.+1 lt_j; rewrite /= => ->.
by apply: eq_bigr => i _; rewrite (nth_map [::]) // nth_behead.
Qed.

Lemma rv_perm_span n (f : vec -> vec) (P : 'M[F]_n) (A : mat) (v : vec) :
  (forall r, size r = n -> size (f r) = n) ->
  (forall r, size r = n -> rv n (f r) = rv n r *m P) -> P \in unitmx -> wf n A -> size v = n ->
  (rv n (f v) <= sp n [seq f r | r <- A])%MS = (rv n v <= sp n A)%MS.
Proof.
move=> sf hf uP wA sv; rewrite hf //.
have -> : (rv n v *m P <= sp n [seq f r | r <- A])%MS = (rv n v *m P <= sp n A *m P)%MS.
  have e : mx (size A) n [seq f r | r <- A] = sp n A *m P.
    by apply/row_matrixP => i; rewrite row_of_mx row_mul row_of_mx (nth_map [::]) // hf // (wf_nth wA).
  by rewrite -e /sp size_map.
apply/idP/idP => [h | h]; last exact: submxMr.
by have := submxMr (invmx P) h; rewrite -!mulmxA !mulmxV // !mulmx1.
Qed.

Lemma rot_perm n b : (b <= n)%N -> exists2 P : 'M[F]_n, P \in unitmx & forall r : vec, size r = n -> rv n (rot b r) = rv n r *m P.
Proof.
move=> le_b; pose q := selmx F n n (rot b (iota 0 n)); exists q.
  pose q' := selmx F n n (rotr b (iota 0 n)).
  suff e : q *m q' = 1%:M by case: (mulmx1_unit e).
  apply/row_matrixP => i.
  have su : size (lrv (row i (1%:M : 'M[F]_n))) = n by rewrite size_lrv.
  have key (c : seq nat) (v : vec) : size c = n -> size v = n -> rv n v *m selmx F n n c = rv n (vsel c v).
    by move=> sc sv; have := rv_vsel c sv; rewrite sc => ->.
  have -> : row i (q *m q') = row i (1%:M : 'M[F]_n) *m q *m q' by rewrite -!row_mul mul1mx.
  rewrite -[row i 1%:M]rv_lrv key ?size_rot ?size_iota // key ?size_rotr ?size_iota ?size_vsel ?size_rot ?size_iota //.
  congr rv; set u := lrv _.
  have e1 : vsel (rot b (iota 0 n)) u = rot b u.
    by rewrite /vsel map_rot map_nth_iota0 ?su // take_oversize ?su.
  have sr : size (rot b u) = n by rewrite size_rot.
  have e2 : vsel (rotr b (iota 0 n)) (rot b u) = rotr b (rot b u).
    by rewrite /vsel map_rotr map_nth_iota0 ?sr // take_oversize ?sr.
  by rewrite e1 e2 rotK.
move=> r sr; have := rv_vsel (rot b (iota 0 n)) sr; rewrite size_rot size_iota => <-.
by congr rv; rewrite /vsel map_rot map_nth_iota0 ?sr // take_oversize ?sr.
Qed.

Lemma rotr_perm n b : (b <= n)%N -> exists2 P : 'M[F]_n, P \in unitmx & forall r : vec, size r = n -> rv n (rotr b r) = rv n r *m P.
Proof.
move=> le_b; have [P uP hP] := @rot_perm n (n - b) (leq_subr _ _); exists P => // r sr.
by rewrite -hP // /rotr sr.
Qed.

Lemma shorten1_spec n (g : mat) (bit : nat) : wf n g -> (bit < n)%N ->
  (exists v, [/\ size v = n, (rv n v <= sp n g)%MS & nth 0 v bit != 0]) ->
  wf n.-1 (shorten1 n g bit) /\
  forall w, size w = n.-1 ->
    (rv n.-1 w <= sp n.-1 (shorten1 n g bit))%MS <->
    (exists v, [/\ size v = n, (rv n v <= sp n g)%MS, nth 0 v bit = 0 & w = del bit v]).
Proof.
case: n => // n wg lt_b [u [su spu nzu]] /=.
have le_b : (bit <= n.+1)%N by apply: ltnW.
have [P uP hP] := rot_perm le_b.
have w1 : wf n.+1 (roll_left bit g).
  by apply/wfP => r /mapP [s sin ->]; rewrite size_rot; move/wfP: wg; apply.
have rotsp (v : vec) : size v = n.+1 ->
  (rv n.+1 (rot bit v) <= sp n.+1 (roll_left bit g))%MS = (rv n.+1 v <= sp n.+1 g)%MS.
  by apply: (rv_perm_span _ hP) => // r; rewrite size_rot.
have rot0 (v : vec) : size v = n.+1 -> nth 0 (rot bit v) 0 = nth 0 v bit.
  by move=> sv; rewrite nth_cat size_drop sv subn_gt0 lt_b nth_drop addn0.
set RR := row_reduce n.+1 (roll_left bit g).
set C := canon n.+1 (roll_left bit g).
have rC : is_rref n.+1 C by apply: canon_rref.
have inC : exists v, [/\ size v = n.+1, (rv n.+1 v <= sp n.+1 C)%MS & nth 0 v 0 != 0].
  exists (rot bit u); split; rewrite ?size_rot ?rot0 //.
  by rewrite (sp_canon w1) rotsp.
have first := rref_drop_first rC (ltn0Sn n) inC.
have wRR : wf n.+1 (behead RR).
  have := wf_row_reduce w1; rewrite -/RR; by case: (RR) => //= r s /andP [].
have zRR r : r \in behead RR -> nth 0 r 0 = 0.
  move=> rin; have sr : size r = n.+1 by move/wfP: wRR; apply.
  have := mem_sp n.+1 rin; rewrite /RR behead_rr // => h.
  by have [] := proj1 (first r sr) h.
set g2 := [seq behead r | r <- behead RR].
have wg2 : wf n g2.
  by apply/wfP => r /mapP [s sin ->]; rewrite size_behead; move/wfP: wRR => ->.
have le_b' : (bit <= n)%N by [].
have [P' uP' hP'] := rotr_perm le_b'.
have wres : wf n (roll_right bit g2).
  by apply/wfP => r /mapP [s sin ->]; rewrite size_rotr; move/wfP: wg2; apply.
rewrite /shorten1 -/RR -/g2; split=> // w sw.
have swr : size (rot bit w) = n by rewrite size_rot.
have -> : (rv n w <= sp n (roll_right bit g2))%MS = (rv n (rot bit w) <= sp n g2)%MS.
  rewrite -[in RHS](rv_perm_span _ hP' uP' wg2 swr) ?rotK // => r; by rewrite size_rotr.
rewrite sp_behead // /RR.
have s0 : size (0 :: rot bit w) = n.+1 by rewrite /= swr.
rewrite behead_rr // (first _ s0) (sp_canon w1).
(* undo the rotation *)
have back (v : vec) : size v = n.+1 -> nth 0 v bit = 0 -> rot bit v = 0 :: rot bit (del bit v).
  move=> sv v0; rewrite /rot /del drop_size_cat ?take_size_cat ?size_takel ?sv //; [|exact: ltnW..].
  by rewrite (drop_nth 0) ?sv // v0.
split.
  case=> h _; exists (rotr bit (0 :: rot bit w)).
  have sv : size (rotr bit (0 :: rot bit w)) = n.+1 by rewrite size_rotr.
  have v0 : nth 0 (rotr bit (0 :: rot bit w)) bit = 0 by rewrite -rot0 // rotrK.
  split=> //; first by rewrite -rotsp // rotrK.
  have := back _ sv v0; rewrite rotrK => -[] e; apply: (@rot_inj bit); exact: e.
case=> v [sv spv v0 ->]; split=> //.
by rewrite -back // rotsp.
Qed.

Lemma del_all (bs : seq nat) (v : vec) : sorted gtn bs -> all (fun b => b < size v)%N bs ->
  foldl (fun v b => del b v) v bs = [seq nth 0 v j | j <- iota 0 (size v) & j \notin bs].
Proof.
elim: bs v => [|b bs IH] v /=.
  by move=> _ _; rewrite filter_predT map_nth_iota0 // take_size.
move=> pth /andP [lt_b lts].
have srt : sorted gtn bs := path_sorted pth.
have lt_bs c : c \in bs -> (c < b)%N.
  by move=> cin; have := order_path_min (rev_trans ltn_trans) pth => /allP /(_ c cin).
rewrite IH //; last first.
  by apply/allP => c cin; rewrite size_del // -ltnS prednK; [apply: leq_ltn_trans (lt_bs _ cin) _ | lia].
rewrite size_del //.
have -> : iota 0 (size v) = iota 0 b ++ b :: iota b.+1 (size v - b.+1).
  rewrite -[b :: _]/(iota b (size v - b.+1).+1) -{2}[b]add0n -iotaD; congr iota; lia.
have -> : iota 0 (size v).-1 = iota 0 b ++ iota b (size v - b.+1).
  rewrite -{3}[b]add0n -iotaD; congr iota; lia.
rewrite !filter_cat /= inE eqxx /= !map_cat; congr (_ ++ _).
  have -> : [seq j <- iota 0 b | j \notin b :: bs] = [seq j <- iota 0 b | j \notin bs].
    apply: eq_in_filter => j; rewrite mem_iota add0n inE => /andP [_ lt_j].
    by rewrite (ltn_eqF lt_j).
  apply/eq_in_map => j; rewrite mem_filter mem_iota add0n => /andP [_ /andP [_ lt_j]].
  by rewrite nth_del // lt_j.
have -> : [seq j <- iota b.+1 (size v - b.+1) | j \notin b :: bs] = iota b.+1 (size v - b.+1).
  apply/all_filterP/allP => j; rewrite mem_iota inE => /andP [lt_j _].
  rewrite (gtn_eqF lt_j) /=; apply/negP => /lt_bs; lia.
have -> : [seq j <- iota b (size v - b.+1) | j \notin bs] = iota b (size v - b.+1).
  apply/all_filterP/allP => j; rewrite mem_iota => /andP [le_j _].
  apply/negP => /lt_bs; lia.
rewrite -[b.+1 in RHS]addn1 [(b + 1)%N]addnC iotaDl -map_comp.
apply/eq_in_map => j; rewrite mem_iota => /andP [le_j _] /=.
by rewrite nth_del // ltnNge le_j.
Qed.

Lemma nth_dels (bs : seq nat) (v : vec) j : (all (fun b => (j < b) && (b < size v)) bs)%N -> sorted gtn bs ->
  nth 0 (foldl (fun v b => del b v) v bs) j = nth 0 v j.
Proof.
elim: bs v => [|b bs IH] v //= /andP [/andP [lt_j lt_b] hall] pth.
have lt_bs c : c \in bs -> (c < b)%N.
  by move=> cin; have := order_path_min (rev_trans ltn_trans) pth => /allP /(_ c cin).
rewrite IH ?(path_sorted pth) //; first by rewrite nth_del // lt_j.
apply/allP => c cin; have /andP [-> _] := allP hall c cin; rewrite size_del //=.
by have := lt_bs c cin; lia.
Qed.

Lemma size_dels (bs : seq nat) (v : vec) : (all (fun b => b < size v) bs)%N -> sorted gtn bs ->
  size (foldl (fun v b => del b v) v bs) = (size v - size bs)%N.
Proof.
elim: bs v => [|b bs IH] v //=; first by rewrite subn0.
case/andP => lt_b hall pth.
have lt_bs c : c \in bs -> (c < b)%N.
  by move=> cin; have := order_path_min (rev_trans ltn_trans) pth => /allP /(_ c cin).
rewrite IH ?(path_sorted pth) ?size_del //; first by lia.
by apply/allP => c cin; have := lt_bs c cin; lia.
Qed.

Lemma foldl_shorten n (g : mat) (bs : seq nat) : wf n g -> (all (fun b => b < n) bs)%N -> sorted gtn bs ->
  (forall k, (k < size bs)%N -> exists v,
     [/\ size v = n, (rv n v <= sp n g)%MS, nth 0 v (nth 0%N bs k) != 0
       & forall l, (l < k)%N -> nth 0 v (nth 0%N bs l) = 0]) ->
  let st := foldl (fun st bit => (st.1.-1, shorten1 st.1 st.2 bit)) (n, g) bs in
  [/\ st.1 = (n - size bs)%N, wf st.1 st.2
    & forall w, size w = st.1 ->
      (rv st.1 w <= sp st.1 st.2)%MS <->
      exists v, [/\ size v = n, (rv n v <= sp n g)%MS, forall b, b \in bs -> nth 0 v b = 0
                  & w = foldl (fun v b => del b v) v bs]].
Proof.
move=> wg; elim/last_ind: bs => [|bs b IH] /=.
  move=> _ _ _; rewrite subn0; split=> // w sw; split=> [h | [v [sv hv _ ->]] //]; by exists w.
rewrite all_rcons => /andP [lt_b lts] srt ind.
have [allb pw] : all (fun c => b < c)%N bs /\ pairwise gtn bs.
  by move: srt; rewrite (sorted_pairwise (rev_trans ltn_trans)) pairwise_rcons => /andP [].
have srt' : sorted gtn bs by rewrite (sorted_pairwise (rev_trans ltn_trans)).
have gtb c : c \in bs -> (b < c)%N by move=> cin; apply: (allP allb).
have {}IH := IH lts srt' _.
have [|e1 w1 h1] := IH.
  move=> k lt_k; have lt_k' : (k < size (rcons bs b))%N by rewrite size_rcons ltnS ltnW.
  have [v [sv hv nzv zv]] := ind k lt_k'; exists v; split=> //.
    by move: nzv; rewrite nth_rcons lt_k.
  by move=> l lt_l; have := zv l lt_l; rewrite nth_rcons (ltn_trans lt_l lt_k).
rewrite foldl_rcons; set st := foldl _ _ _ in e1 w1 h1 *.
have le_sz : (size bs <= n - b.+1)%N.
  (* the entries of bs are distinct numbers in (b, n) *)
  have un : uniq bs by apply: (sorted_uniq (rev_trans ltn_trans) ltnn srt').
  rewrite -(size_iota b.+1 (n - b.+1)); apply: uniq_leq_size => // c cin.
  by rewrite mem_iota gtb //=; move: lt_b (allP lts c cin); clear => /=; lia.
have lt_bst : (b < st.1)%N by rewrite e1; move: lt_b le_sz; clear; set k := size bs; lia.
have hall (v : vec) : size v = n -> (all (fun c => (b < c) && (c < size v)) bs)%N.
  by move=> sv; apply/allP => c cin; rewrite gtb // sv (allP lts).
have hall' (v : vec) : size v = n -> (all (fun c => c < size v) bs)%N.
  by move=> sv; apply/allP => c cin; rewrite sv (allP lts).
have [|w2 h2] := @shorten1_spec st.1 st.2 b w1 lt_bst.
  have lt_k : (size bs < size (rcons bs b))%N by rewrite size_rcons.
  have [v [sv hv nzv zv]] := ind (size bs) lt_k.
  have sz : size (foldl (fun v b => del b v) v bs) = st.1 by rewrite size_dels ?hall' // sv e1.
  exists (foldl (fun v b => del b v) v bs); split=> //.
    apply/h1 => //; exists v; split=> // c /(nthP 0%N) [l lt_l <-].
    by have := zv l lt_l; rewrite nth_rcons lt_l.
  by rewrite nth_dels ?hall //; move: nzv; rewrite nth_rcons ltnn eqxx.
rewrite /=; split.
- by rewrite e1 size_rcons subnS.
- exact: w2.
move=> w sw; rewrite h2 //; split.
  case=> u [su /(h1 _ su) [v [sv hv zv eu]] u0 ->]; exists v; split=> //.
    move=> c; rewrite mem_rcons inE => /orP [/eqP -> | /zv //].
    by move: u0; rewrite eu nth_dels ?hall.
  by rewrite foldl_rcons -eu.
case=> v [sv hv zv ->]; exists (foldl (fun v b => del b v) v bs); split.
- by rewrite size_dels ?hall' // sv e1.
- apply/h1; first by rewrite size_dels ?hall' // sv e1.
  by exists v; split=> // c cin; apply: zv; rewrite mem_rcons inE cin orbT.
- by rewrite nth_dels ?hall // zv // mem_rcons mem_head.
by rewrite foldl_rcons.
Qed.

(* every assignment of values to the given bits is taken by some code word *)
Definition bits_independent n (H : mat) (bits : seq nat) : Prop :=
  forall a : nat -> F, exists w, is_word n H w /\ forall b, b \in bits -> nth 0 w b = a b.

Lemma shorten_words (c : ccode F) (bits : seq nat) (w : vec) : code_ok c -> uniq bits ->
  all (fun b => b < cc_n c)%N bits ->
  bits_independent (cc_n c) (cc_mat c) bits -> size w = size (bits_to_keep (cc_n c) bits) ->
  cc_n (shorten c bits) = size (bits_to_keep (cc_n c) bits) /\
  (is_word (size w) (cc_mat (shorten c bits)) w <->
   exists x, [/\ is_word (cc_n c) (cc_mat c) x, forall b, b \in bits -> nth 0 x b = 0
               & w = [seq nth 0 x j | j <- iota 0 (cc_n c) & j \notin bits]]).
Proof.
move=> ok ub; rewrite /shorten /shorten_gen /=; have := gen_basis ok.
move: (generator c) (cc_mat c) (cc_n c) => G H n bG lts ind sw.
have wN : wf n G := basis_wf bG.
set bs := sort _ bits.
have mbs : bs =i bits by apply: mem_sort.
have srt : sorted gtn bs.
  have ubs : uniq bs by rewrite sort_uniq.
  have := sort_sorted (leT := fun i j => (j <= i)%N) (fun i j => leq_total j i) bits; rewrite -/bs => h.
  have := ltn_sorted_uniq_leq (rev bs); rewrite rev_uniq ubs /= !rev_sorted => ->; exact: h.
have lts' : all (fun b => b < n)%N bs by rewrite (eq_all_r mbs).
have ubs : uniq bs by rewrite sort_uniq.
have hind k : (k < size bs)%N -> exists v,
     [/\ size v = n, (rv n v <= sp n G)%MS, nth 0 v (nth 0%N bs k) != 0
       & forall l, (l < k)%N -> nth 0 v (nth 0%N bs l) = 0].
  move=> lt_k; have [v [hv e]] := ind (fun b => (b == nth 0%N bs k)%:R).
  have sv : size v = n by case: hv.
  exists v; split=> //; first exact/(word_span bG sv).
    by rewrite e ?eqxx ?oner_eq0 // -mbs mem_nth.
  move=> l lt_l; have lt_l' := ltn_trans lt_l lt_k; rewrite e ?nth_uniq //; last by rewrite -mbs mem_nth.
  by rewrite (ltn_eqF lt_l).
have [e1 w1 h1] := foldl_shorten wN lts' srt hind.
set st := foldl _ _ _ in e1 w1 h1 *.
have keepE : bits_to_keep n bits = [seq j <- iota 0 n | j \notin bs] by apply: eq_filter => j; rewrite mbs.
have dels (v : vec) : size v = n -> foldl (fun v b => del b v) v bs = [seq nth 0 v j | j <- iota 0 n & j \notin bits].
  move=> sv; rewrite (del_all srt) ?sv //; congr map; exact: esym keepE.
have e2 : st.1 = size (bits_to_keep n bits).
  have s0 : size (vzero F n) = n by rewrite size_vzero.
  have e := congr1 size (dels _ s0); rewrite size_map size_dels ?s0 // in e.
  by rewrite e1 e.
rewrite sw -e2; split=> //.
rewrite (@from_generator_words F st.1 st.2 w w1) ?sw // (combP _ (etrans sw (esym e2))) h1 ?sw //.
split=> [[v [sv hv zv ->]] | [x [hx zx ->]]].
  exists v; split; [exact/(word_span bG sv) | by move=> b; rewrite -mbs; apply: zv | exact: dels].
have sx : size x = n by case: hx.
exists x; split=> //; [exact/(word_span bG sx) | by move=> b; rewrite mbs; apply: zx | by rewrite dels].
Qed.

(* ---------------------------------------------------------- set_generator *)
Lemma many_mx0P m n (A : mat) : size A = m -> wf n A -> reflect (mx m n A = 0) (~~ many A).
Proof.
move=> sA wA; apply: (iffP idP) => [h | h].
  apply/row_matrixP => i; rewrite row_of_mx row0; have lt_i : (i < size A)%N by rewrite sA.
  by apply/eqP; rewrite (rv_eq0 (wf_nth wA lt_i)); move/hasPn: h; apply; exact: mem_nth.
apply/hasPn => r /(nthP [::]) [i lt_i <-].
rewrite -(rv_eq0 (wf_nth wA lt_i)); rewrite sA in lt_i; have := row_of_mx n A (Ordinal lt_i).
by rewrite h row0 => <-.
Qed.
Lemma many_mx0 m n (A : mat) : size A = m -> wf n A -> many A = false -> mx m n A = 0.
Proof. by move=> sA wA h; apply/many_mx0P => //; rewrite h. Qed.

Lemma set_generator_ok (c : ccode F) g c' : code_ok c -> wf (cc_n c) g -> set_generator c g = Some c' ->
  [/\ cc_n c' = cc_n c /\ cc_mat c' = cc_mat c, generator c' = g, (forall r, r \in g -> is_word (cc_n c) (cc_mat c) r),
      (forall w, is_word (cc_n c) (cc_mat c) w -> exists x, is_comb (cc_n c) g x w)
    & (size g <= dimension c)%N -> is_basis (cc_n c) (cc_mat c) g /\ code_ok c'].
Proof.
move=> ok wg; rewrite /set_generator; case: ifP => // nz; case: ifP => // /eqP rk [<-] /=.
have [wH _ hd] := ok; rewrite (rank_ok ok) in rk; have dimE := dim_ok ok.
move: (cc_n c) (cc_mat c) (cc_dim c) nz rk wH wg hd dimE => n H d nz rk wH wg hd dimE.
have prod0 : sp n g *m (sp n H)^T = 0.
  apply: trmx_inj; rewrite trmx_mul trmxK trmx0 -(mx_trl n (erefl (size g))) -mx_mull ?size_trl //.
  by apply: many_mx0; rewrite ?size_mull ?wf_mull.
have sub : (sp n g <= kermx (sp n H)^T)%MS by apply/sub_kermxP.
have eq : (sp n g == kermx (sp n H)^T)%MS.
  by rewrite -(mxrank_leqif_eq sub) -(size_canon wg) rk mxrank_ker mxrank_tr.
split=> //.
- move=> r rg; have sr : size r = n by move/wfP: wg; apply.
  by apply/(is_wordE _ sr)/sub_kermxP; apply: submx_trans (mem_sp n rg) sub.
- move=> w hw; have sw : size w = n by case: hw.
  apply/(combP _ sw); rewrite (eqmxP eq); apply/sub_kermxP; exact/(is_wordE _ sw).
rewrite dimE => le_g.
have b : is_basis n H g.
  apply: basis_intro => //; last exact/eqmxP.
  by rewrite /row_free eqn_leq rank_leq_row /= -(size_canon wg) rk.
by split=> //; split=> //= _ [<-].
Qed.

Lemma set_generator_basis_accepted (c : ccode F) g : code_ok c -> is_basis (cc_n c) (cc_mat c) g ->
  exists2 c', set_generator c g = Some c' & generator c' = g.
Proof.
move=> ok b; have wg := basis_wf b; have [fr e] := basis_elim wg b; have [wH _ _] := ok.
exists (CCode (cc_n c) (cc_mat c) (Some g) (cc_dim c)) => //; rewrite /set_generator.
have -> : many (mull (size g) (cc_mat c) (trl (cc_n c) g)) = false.
  apply/negbTE/(many_mx0P (size_mull _ _ _) (wf_mull _ _ _)).
  rewrite (@mx_mull _ (size (cc_mat c)) (cc_n c)) ?size_trl // (mx_trl (cc_n c) (erefl (size g))).
  apply: trmx_inj; rewrite trmx_mul trmxK trmx0; apply/sub_kermxP; by rewrite -e.
by rewrite (size_canon wg) (rank_ok ok) e mxrank_ker mxrank_tr eqxx.
Qed.

Lemma iter_words_ok (c : ccode F) (el : vec) : code_ok c -> uniq (0 :: el) -> (forall x, x \in 0 :: el) ->
  [/\ uniq (iter_words (0 :: el) c false),
      forall w, w \in iter_words (0 :: el) c false <-> is_word (cc_n c) (cc_mat c) w,
      uniq (iter_words (0 :: el) c true)
    & forall w, w \in iter_words (0 :: el) c true <-> is_word (cc_n c) (cc_mat c) w /\ exists j, nth 0 w j <> 0].
Proof.
move=> ok uel full; have b := gen_basis ok; rewrite /iter_words.
have un := iter_words_uniq uel b; have me w := @iter_words_mem _ _ _ _ _ w full b.
split=> //; rewrite product_head /= in un me *.
  by case/andP: un.
set z := vmulm _ _ _ in un me; set S := map _ _ in un me *.
have ez : z = vzero F (cc_n c).
  apply: (@rv_inj _ (cc_n c)); rewrite ?size_vmulm ?size_vzero // rv_vmulm ?size_nseq //.
  by rewrite [rv _ (nseq _ _)](rv_zero F) mul0mx rv_zero.
move=> w; have {me} := me w; rewrite inE ez => me; case/andP: un => nz _; rewrite ez in nz.
split=> [wS | [/me /orP [/eqP -> [j] | //]]]; last by rewrite nth_nseq if_same.
have hw : is_word (cc_n c) (cc_mat c) w by apply/me; rewrite wS orbT.
split=> //; apply/nz_hwt; rewrite lt0n; apply/eqP => h0.
have sw : size w = cc_n c by case: hw.
have e0 : w = vzero F (cc_n c).
  apply: (@eq_from_nth _ 0); first by rewrite sw size_vzero.
  move=> j lt_j; rewrite nth_nseq if_same; apply/eqP; apply: contraT => h.
  by have := proj1 (nz_hwt w) (ex_intro _ j (elimN eqP h)); rewrite h0.
by move: nz; rewrite -e0 wS.
Qed.

Lemma shorten_words_ok (c : ccode F) (bits : seq nat) (w : vec) : code_ok c -> uniq bits ->
  all (fun b => b < cc_n c)%N bits ->
  bits_independent (cc_n c) (cc_mat c) bits -> size w = (cc_n c - size bits)%N ->
  cc_n (shorten c bits) = (cc_n c - size bits)%N /\
  (is_word (cc_n (shorten c bits)) (cc_mat (shorten c bits)) w <->
   exists x, [/\ is_word (cc_n c) (cc_mat c) x, forall b, b \in bits -> nth 0 x b = 0
               & w = [seq nth 0 x j | j <- iota 0 (cc_n c) & j \notin bits]]).
Proof.
move=> ok ub lts ind sw.
have ke : size (bits_to_keep (cc_n c) bits) = (cc_n c - size bits)%N.
  have e := count_predC (mem bits) (iota 0 (cc_n c)); rewrite size_iota in e.
  rewrite /bits_to_keep size_filter -[X in (X - _)%N]e.
  suff -> : count (mem bits) (iota 0 (cc_n c)) = size bits by rewrite addKn.
  rewrite -size_filter; apply/eqP; rewrite -(@uniq_size_uniq _ bits) ?filter_uniq ?iota_uniq // => j.
  rewrite mem_filter mem_iota add0n /=; case jb : (j \in bits) => //=; by rewrite (allP lts).
rewrite -ke in sw *; have [e h] := shorten_words ok ub lts ind sw.
by rewrite e -sw.
Qed.
End Proofs.

Lemma shorten_refuted :
  exists (c : ccode [fieldType of 'F_2]) (bits : seq nat) (w : seq 'F_2),
    [/\ code_ok c, uniq bits, all (fun b => b < cc_n c)%N bits, size w = (cc_n c - size bits)%N
      & ~ (is_word (cc_n (shorten c bits)) (cc_mat (shorten c bits)) w <->
           exists x, [/\ is_word (cc_n c) (cc_mat c) x, forall b, b \in bits -> nth 0 x b = 0
                       & w = [seq nth 0 x j | j <- iota 0 (cc_n c) & j \notin bits]])].
Proof.
pose c : ccode [fieldType of 'F_2] := mkcode 2 [:: [:: 1; 0]].
exists c, [:: 0%N], [:: 1]; split=> // -[_ h].
have : is_word (cc_n (shorten c [:: 0%N])) (cc_mat (shorten c [:: 0%N])) [:: 1].
  apply: h; exists [:: 0; 1]; split=> //; last by move=> b; rewrite inE => /eqP ->.
  by split=> // r; rewrite inE => /eqP ->; rewrite !big_ord_recl big_ord0 /= mulr0 mul0r !addr0.
have /eqP -> : cc_mat (shorten c [:: 0%N]) == [:: [:: 1]] by vm_compute.
have /eqP -> : cc_n (shorten c [:: 0%N]) == 1%N by vm_compute.
case=> _ /(_ [:: 1] (mem_head _ _)); rewrite big_ord_recl big_ord0 /= mulr1 addr0 => /eqP.
by rewrite oner_eq0.
Qed.

Lemma shorten_repeated_refuted :
  exists (c : ccode [fieldType of 'F_2]) (bits : seq nat),
    [/\ code_ok c, all (fun b => b < cc_n c)%N bits
      & cc_n (shorten c bits) <> size (bits_to_keep (cc_n c) bits)].
Proof. by exists (mkcode 3 [:: [:: 1; 1; 0]]), [:: 0; 0]%N. Qed.

Lemma set_generatorE (F : fieldType) n (H g : seq (seq F)) : set_generator (mkcode n H) g =
  if many (mull (size g) H (trl n g)) then None
  else if size (canon n g) == (n - size (canon n H))%N then Some (CCode n H (Some g) None) else None.
Proof. by []. Qed.

Lemma set_generator_refuted :
  exists (c : ccode [fieldType of 'F_2]) g c',
    [/\ code_ok c, wf (cc_n c) g, set_generator c g = Some c', ~ is_basis (cc_n c) (cc_mat c) g
      & ~~ uniq (iter_words [:: 0; 1] c' false) /\ vzero [fieldType of 'F_2] (cc_n c) \in iter_words [:: 0; 1] c' true].
Proof.
pose H : seq (seq 'F_2) := [:: [:: 1; 1]]; pose g : seq (seq 'F_2) := [:: [:: 1; 1]; [:: 1; 1]].
have e0 : many (mull (size g) H (trl 2 g)) = false by apply/eqP; vm_compute.
have e1 : size (canon 2 g) = 1%N by apply/eqP; vm_compute.
have e2 : size (canon 2 H) = 1%N by apply/eqP; vm_compute.
exists (mkcode 2 H), g, (CCode 2 H (Some g) None); split; [by [] | by [] | | | by vm_compute].
  by rewrite set_generatorE; move: H g e0 e1 e2 => {}H {}g -> -> ->.
move=> b; have := basis_size b.
have -> : \rank (sp (cc_n (mkcode 2 H)) (cc_mat (mkcode 2 H))) = 1%N by rewrite -[in RHS]e2 -(@size_canon _ 2 H).
by [].
Qed.
