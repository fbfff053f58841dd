(* Stabilizers, dimension and logical operators of CSS codes. *)
From mathcomp Require Import all_ssreflect all_algebra zify.
From Verif Require Import LinAlg RowReduce Classical ClassicalProofs ClassicalProofs2 Symplectic Quantum QuantumProofs
  QuantumPerm QuantumStab QuantumLogs QuantumOps Css CssForm CssLogs.
Set Implicit Arguments.
Unset Strict Implicit.
Unset Printing Implicit Defensive.
Import GRing.Theory.
Local Open Scope ring_scope.

Section Proofs.
Variable F : fieldType.
Notation vec := (seq F).
Notation mat := (seq (seq F)).
Notation Z n A := (sp (n + n) A :&: scomp (sp (n + n) A))%MS.

(* ---------------------------------------------------------------- block matrices *)
Lemma row_block m1 m2 p n1 n2 (u : 'M[F]_(p, n1)) (v : 'M[F]_(p, n2)) (A : 'M[F]_(m1, n1)) (B : 'M[F]_(m2, n2)) :
  (row_mx u v <= block_mx A 0 0 B)%MS = (u <= A)%MS && (v <= B)%MS.
Proof.
apply/idP/andP => [/submxP [D] | [/submxP [a ->] /submxP [b ->]]].
  rewrite -[D]hsubmxK mul_row_block !mulmx0 addr0 add0r => /eq_row_mx [-> ->].
  by rewrite !submxMl.
by apply/submxP; exists (row_mx a b); rewrite mul_row_block !mulmx0 addr0 add0r.
Qed.

Lemma block_eqmx m1 m2 p1 p2 n1 n2 (A : 'M[F]_(m1, n1)) (B : 'M[F]_(m2, n2)) (C : 'M[F]_(p1, n1)) (D : 'M[F]_(p2, n2)) :
  (A :=: C)%MS -> (B :=: D)%MS -> (block_mx A 0 0 B :=: block_mx C 0 0 D)%MS.
Proof.
move=> e1 e2; apply/eqmxP/rV_eqP => u.
by rewrite -[u]hsubmxK !row_block e1 e2.
Qed.

Lemma block_inj m1 m2 p1 p2 n1 n2 (A : 'M[F]_(m1, n1)) (B : 'M[F]_(m2, n2)) (C : 'M[F]_(p1, n1)) (D : 'M[F]_(p2, n2)) :
  (block_mx A 0 0 B :=: block_mx C 0 0 D)%MS -> (A :=: C)%MS /\ (B :=: D)%MS.
Proof.
move=> e; split; apply/eqmxP/rV_eqP => u.
  have := row_block u 0 A B; rewrite sub0mx andbT => <-.
  by rewrite e row_block sub0mx andbT.
have := row_block 0 u A B; rewrite sub0mx andTb => <-.
by rewrite e row_block sub0mx.
Qed.

Lemma gram_block m1 m2 p1 p2 n (X : 'M[F]_(m1, n)) (W : 'M[F]_(m2, n)) (X' : 'M[F]_(p1, n)) (W' : 'M[F]_(p2, n)) :
  block_mx X 0 0 W *m symJ F n *m (block_mx X' 0 0 W')^T = block_mx 0 (X *m W'^T) (- (W *m X'^T)) 0.
Proof.
rewrite /symJ tr_block_mx !trmx0 !mulmx_block ?(mulmx0, mul0mx, addr0, add0r, mulmx1, mulmxN) ?mulNmx.
by rewrite mul0mx oppr0.
Qed.

Lemma center_block m1 m2 n (X : 'M[F]_(m1, n)) (W : 'M[F]_(m2, n)) :
  (block_mx X 0 0 W :&: scomp (block_mx X 0 0 W) :=: block_mx (X :&: kermx W^T)%MS 0 0 (W :&: kermx X^T)%MS)%MS.
Proof.
apply/eqmxP/rV_eqP => u; rewrite -[u]hsubmxK; set a := lsubmx u; set b := rsubmx u.
rewrite row_block !sub_capmx row_block.
have -> : (row_mx a b <= scomp (block_mx X 0 0 W))%MS = (a <= kermx W^T)%MS && (b <= kermx X^T)%MS.
  rewrite (sameP (@scompP' _ _ _ _ _ _) eqP) symJ_mx tr_block_mx !trmx0 mul_row_block ?(mulmx0, mul0mx, addr0, add0r).
  rewrite !(sameP sub_kermxP eqP) andbC; apply/eqP/andP => [/eqP | [/eqP e1 /eqP e2]].
    by rewrite -[X in _ == X]row_mx0 => /eqP /eq_row_mx [/eqP + ->]; rewrite mulNmx oppr_eq0.
  by rewrite mulNmx e1 oppr0 e2 row_mx0.
by rewrite -!andbA; congr (_ && _); rewrite andbCA.
Qed.

Lemma rank_block m1 m2 n1 n2 (A : 'M[F]_(m1, n1)) (B : 'M[F]_(m2, n2)) :
  \rank (block_mx A 0 0 B) = (\rank A + \rank B)%N.
Proof. exact: rank_diag_block_mx. Qed.

(* ---------------------------------------------------------------- the matrix of a CSS code *)
Lemma wf_css n (X W : mat) : wf n X -> wf n W -> wf (n + n) (css_mat n X W).
Proof. exact: wf_bdiag. Qed.

Lemma sp_css n (X W : mat) : wf n X -> wf n W ->
  (sp (n + n) (css_mat n X W) :=: block_mx (sp n X) 0 0 (sp n W))%MS.
Proof.
move=> wX wW; apply: eqmx_trans (sp_mx _ (size_bdiag n n X W)) _.
by rewrite (mx_bdiag erefl erefl).
Qed.

Lemma nth_bdiag n p (A B : mat) i : (i < size A + size B)%N ->
  nth [::] (bdiag n p A B) i = if (i < size A)%N then nth [::] A i ++ nseq p 0 else nseq n 0 ++ nth [::] B (i - size A).
Proof.
move=> hi; rewrite /bdiag nth_cat size_map; case: ifP => h; first by rewrite (nth_map [::]).
by rewrite (nth_map [::]) // ltn_subLR // leqNgt h.
Qed.

Lemma first_nz_catl (r s : vec) : vany r -> first_nz (r ++ s) = first_nz r.
Proof.
move=> h; have [lt nz bf] := first_nzP h; apply: first_nz_eq.
- by rewrite size_cat ltn_addr.
- by rewrite nth_cat lt.
- by move=> c lc; rewrite nth_cat (ltn_trans lc lt) bf.
Qed.

Lemma first_nz_catr n (r : vec) : vany r -> first_nz (nseq n 0 ++ r) = (n + first_nz r)%N.
Proof.
move=> h; have [lt nz bf] := first_nzP h; apply: first_nz_eq.
- by rewrite size_cat size_nseq ltn_add2l.
- by rewrite nth_cat size_nseq ltnNge leq_addr addKn.
- move=> c lc; rewrite nth_cat size_nseq nth_nseq; case: (ltnP c n) => h' //.
  by apply: bf; rewrite ltn_subLR.
Qed.

Lemma rref_vany n (A : mat) r : is_rref n A -> r \in A -> vany r.
Proof. by case=> _ h _ _ /h [j _ /eqP nz]; apply: (vany_nth nz). Qed.

Lemma rref_bdiag n p (A B : mat) : is_rref n A -> is_rref p B -> is_rref (n + p) (bdiag n p A B).
Proof.
move=> rA rB; have [wA nA oA eA] := rA; have [wB nB oB eB] := rB.
have fA i : (i < size A)%N -> first_nz (nth [::] (bdiag n p A B) i) = first_nz (nth [::] A i).
  move=> hi; rewrite nth_bdiag ?ltn_addr // hi first_nz_catl //.
  by apply: rref_vany rA _; apply: mem_nth.
have fB i : (i < size B)%N -> first_nz (nth [::] (bdiag n p A B) (size A + i)) = (n + first_nz (nth [::] B i))%N.
  move=> hi; rewrite nth_bdiag ?ltn_add2l // ltnNge leq_addr addKn first_nz_catr //.
  by apply: rref_vany rB _; apply: mem_nth.
have entA i j : (i < size A)%N -> ent (bdiag n p A B) i j = if (j < n)%N then ent A i j else 0.
  move=> hi; rewrite /ent nth_bdiag ?ltn_addr // hi nth_cat (wf_nth wA hi); case: ifP => // _.
  by rewrite nth_nseq; case: ifP.
have entB i j : (i < size B)%N -> ent (bdiag n p A B) (size A + i) j = if (j < n)%N then 0 else ent B i (j - n).
  move=> hi; rewrite /ent nth_bdiag ?ltn_add2l // ltnNge leq_addr addKn nth_cat size_nseq.
  by case: ifP => // h; rewrite nth_nseq h.
have cs i : (i < size A + size B)%N -> (i < size A)%N \/ exists2 i', (i' < size B)%N & i = (size A + i')%N.
  move=> hi; case: (ltnP i (size A)) => h; first by left.
  by right; exists (i - size A)%N; lia.
split.
- exact: wf_bdiag.
- move=> r; rewrite mem_cat => /orP [] /mapP [q qA ->].
    have [j hj nz] := nA _ qA; exists j; first by rewrite ltn_addr.
    by move/wfP: wA => /(_ _ qA) sq; rewrite nth_cat sq hj.
  have [j hj nz] := nB _ qA; exists (n + j)%N; first by rewrite ltn_add2l.
  by rewrite nth_cat size_nseq ltnNge leq_addr addKn.
- move=> i j; rewrite size_bdiag => /andP [lt hj]; have hi := ltn_trans lt hj.
  case: (cs _ hi) => [hi' | [i' hi' ei]]; case: (cs _ hj) => [hj' | [j' hj' ej]]; subst.
  + by rewrite !fA // oA // lt.
  + rewrite fA // fB //; have := rref_first_lt rA hi'; move: (first_nz _) (first_nz _); clear; lia.
  + by move: lt hj' => lt hj'; exfalso; move: lt hj'; clear; lia.
  + by rewrite !fB // ltn_add2l oB //; move: lt; rewrite ltn_add2l => ->.
- move=> i k; rewrite size_bdiag => hi hk.
  case: (cs _ hi) => [hi' | [i' hi' ei]]; case: (cs _ hk) => [hk' | [k' hk' ek]]; subst.
  + by rewrite fA // entA // (rref_first_lt rA hk') eA.
  + rewrite fB // entA // ltnNge leq_addr /=; suff -> : (i == size A + k')%N = false by [].
    by apply/eqP; move: hi' hk'; clear; lia.
  + rewrite fA // entB // (rref_first_lt rA hk') /=; suff -> : (size A + i' == k)%N = false by [].
    by apply/eqP; move: hi' hk'; clear; lia.
  + by rewrite fB // entB // ltnNge leq_addr addKn eB // eqn_add2l.
Qed.

Lemma canon_css n (X W : mat) : wf n X -> wf n W ->
  canon (n + n) (css_mat n X W) = css_mat n (canon n X) (canon n W).
Proof.
move=> wX wW; apply: (@rref_unique _ (n + n)).
- by apply: canon_rref; apply: wf_css.
- by apply: rref_bdiag; apply: canon_rref.
- apply: eqmx_trans (sp_canon (wf_css wX wW)) _; apply: eqmx_trans (sp_css wX wW) _.
  apply: eqmx_sym; apply: eqmx_trans (sp_css (wf_canon wX) (wf_canon wW)) _.
  by apply: block_eqmx; apply: sp_canon.
Qed.

(* ---------------------------------------------------------------- stabilizers *)
Lemma css_center n (X W : mat) : wf n X -> wf n W ->
  (Z n (css_mat n X W) :=: block_mx (sp n X :&: kermx (sp n W)^T)%MS 0 0 (sp n W :&: kermx (sp n X)^T)%MS)%MS.
Proof.
move=> wX wW; apply: eqmx_trans (center_block _ _).
by apply: cap_eqmx; [|apply: scomp_eqmx]; apply: sp_css.
Qed.

Lemma null_cat_null n (A B : mat) : wf n A -> wf n B ->
  is_rref n (null_space n (B ++ null_space n A)) /\
  (sp n (null_space n (B ++ null_space n A)) :=: sp n A :&: kermx (sp n B)^T)%MS.
Proof.
move=> wA wB; have wN := wf_null_space wA; have wC : wf n (B ++ null_space n A) by rewrite wf_cat wB.
have [r _] := null_space_spec wC; split=> //.
have [_ eN] := null_space_spec wA.
apply/eqmxP/rV_eqP => u; rewrite sub_capmx andbC.
rewrite [in RHS](orth_orth (sp n A)).
apply/null_spaceP/andP => // [/eqP h | [/sub_kermxP h1 /sub_kermxP h2]].
  have : (u <= kermx (sp n (B ++ null_space n A))^T)%MS by apply/sub_kermxP/eqP.
  rewrite (kermx_tr_sub (sp_cat _ _ _)).
  rewrite tr_col_mx (sameP sub_kermxP eqP) mul_mx_row -[X in _ == X]row_mx0 => /eqP /eq_row_mx [e1 e2].
  split; first by apply/sub_kermxP.
  rewrite -(kermx_tr_sub eN); exact/sub_kermxP.
have {}h2 : u *m (sp n (null_space n A))^T = 0 by apply/sub_kermxP; rewrite (kermx_tr_sub eN); apply/sub_kermxP.
apply/sub_kermxP; rewrite (kermx_tr_sub (sp_cat _ _ _)) tr_col_mx; apply/sub_kermxP.
by rewrite mul_mx_row h1 h2 row_mx0.
Qed.

Lemma css_stabs_ok n (X W : mat) : wf n X -> wf n W ->
  bdiag n n (css_stabs n X W).1 (css_stabs n X W).2 = compute_stabs n (css_mat n X W).
Proof.
move=> wX wW; have [r1 e1] := null_cat_null wX wW; have [r2 e2] := null_cat_null wW wX.
have [rC eC] := compute_stabs_ok (wf_css wX wW).
apply: (@rref_unique _ (n + n)) => //; first exact: rref_bdiag.
have [w1 _ _ _] := r1; have [w2 _ _ _] := r2.
apply: eqmx_trans (sp_css w1 w2) _; apply: eqmx_sym; apply: eqmx_trans eC _.
apply: eqmx_trans (css_center wX wW) _; apply: eqmx_sym; exact: block_eqmx.
Qed.


Lemma c_stab_q (c : csscode F) r cz : wf (c_n c) (c_x c) -> wf (c_n c) (c_z c) ->
  (c_get_stabilizer_ops c r cz).1 = (get_stabilizer_ops (c_q c) r cz).1 /\
  c_q (c_get_stabilizer_ops c r cz).2 = (get_stabilizer_ops (c_q c) r cz).2.
Proof.
move=> wX wW; rewrite /c_get_stabilizer_ops /get_stabilizer_ops /=.
case: (c_sub c) => /=; last by rewrite canon_css.
rewrite canon_css // css_stabs_ok ?wf_canon //.
by case: (c_stab c) => [s|]; case: r => //=; case: ifP.
Qed.

Lemma c_rank_q (c : csscode F) : wf (c_n c) (c_x c) -> wf (c_n c) (c_z c) -> c_rank c = q_rank (c_q c).
Proof. by move=> wX wW; rewrite /c_rank /q_rank /= canon_css // size_bdiag. Qed.

Lemma c_dimension_q (c : csscode F) : wf (c_n c) (c_x c) -> wf (c_n c) (c_z c) -> c_dimension c = q_dimension (c_q c).
Proof. by move=> wX wW; rewrite /c_dimension /q_dimension /= c_rank_q // (c_stab_q _ _ wX wW).1. Qed.

Lemma c_gauge_dimension_q (c : csscode F) : wf (c_n c) (c_x c) -> wf (c_n c) (c_z c) -> c_gauge_dimension c = q_gauge_dimension (c_q c).
Proof. by move=> wX wW; rewrite /c_gauge_dimension /q_gauge_dimension /= c_rank_q // (c_stab_q _ _ wX wW).1. Qed.

(* ---------------------------------------------------------------- rows of X type and of Z type *)
Lemma typed_bdiag n (A B : mat) r : wf n A -> r \in bdiag n n A B -> css_typed n r.
Proof.
move=> wA; rewrite mem_cat => /orP [] /mapP [q qA ->]; [left|right].
  by move/wfP: wA => /(_ _ qA) <-; rewrite drop_size_cat.
by rewrite take_size_cat ?size_nseq.
Qed.

Lemma first_nz_lt n (r : vec) : size r = (n + n)%N -> ~~ (first_nz r < n)%N -> take n r = vzero F n.
Proof.
move=> sr; rewrite -leqNgt => le; have st : size (take n r) = n by rewrite half_take.
apply: (@eq_from_nth _ 0); first by rewrite st size_vzero.
move=> i; rewrite st => hi; rewrite nth_take // nth_vzero.
case: (boolP (vany r)) => [/first_nzP [_ _ bf] | /hasPn h].
  by apply: bf; apply: leq_trans hi le.
have : nth 0 r i \in r by apply: mem_nth; rewrite sr ltn_addr.
by move/h; rewrite negbK => /eqP.
Qed.

Lemma first_nz_x n (r : vec) : size r = (n + n)%N -> css_typed n r -> (first_nz r < n)%N -> drop n r = vzero F n.
Proof.
move=> sr [-> // | tz] lt; have sd : size (drop n r) = n by rewrite half_drop.
apply: (@eq_from_nth _ 0); first by rewrite sd size_vzero.
move=> i; rewrite sd => hi; rewrite nth_drop nth_vzero; apply/eqP/negPn/negP => nz.
have [_ nz' _] := first_nzP (vany_nth nz).
by move: nz'; rewrite -(nth_take 0 lt) tz nth_vzero eqxx.
Qed.

Lemma sp_typed n (s : mat) : wf (n + n) s -> (forall r, r \in s -> css_typed n r) ->
  let sx := x_part n [seq r <- s | (first_nz r < n)%N] in
  let sz := z_part n [seq r <- s | ~~ (first_nz r < n)%N] in
  [/\ wf n sx, wf n sz & (sp (n + n) s :=: block_mx (sp n sx) 0 0 (sp n sz))%MS].
Proof.
move=> ws ty sx sz; have szs r : r \in s -> size r = (n + n)%N by move/wfP: ws; apply.
have w1 : wf n sx.
  by apply/wfP => r /mapP [q]; rewrite mem_filter => /andP [_ qs] ->; rewrite half_take ?szs.
have w2 : wf n sz.
  by apply/wfP => r /mapP [q]; rewrite mem_filter => /andP [_ qs] ->; rewrite half_drop ?szs.
split=> //; apply: eqmx_trans (sp_css w1 w2).
apply/eqmxP/andP; split; apply/sp_subP => // r rs.
- have sr := szs _ rs; case: (boolP (first_nz r < n)%N) => h.
    apply: mem_sp; rewrite mem_cat; apply/orP; left; apply/mapP; exists (take n r).
      by apply/mapP; exists r => //; rewrite mem_filter h.
    by rewrite -[nseq n 0](first_nz_x sr (ty _ rs) h) cat_take_drop.
  apply: mem_sp; rewrite mem_cat; apply/orP; right; apply/mapP; exists (drop n r).
    by apply/mapP; exists r => //; rewrite mem_filter h.
  by rewrite -[nseq n 0](first_nz_lt sr h) cat_take_drop.
- move: rs; rewrite mem_cat => /orP [] /mapP [q /mapP [t]]; rewrite mem_filter => /andP [h ts] -> ->.
    by rewrite -[nseq n 0](first_nz_x (szs _ ts) (ty _ ts) h) cat_take_drop mem_sp.
  by rewrite -[nseq n 0](first_nz_lt (szs _ ts) h) cat_take_drop mem_sp.
Qed.

Lemma c_ok_wf (c : csscode F) : c_ok c -> wf (c_n c) (c_x c) /\ wf (c_n c) (c_z c).
Proof. by case. Qed.

(* X-type and Z-type stabilizers *)
Lemma c_stab_typed (c : csscode F) r cz : c_ok c -> forall t, t \in (c_get_stabilizer_ops c r cz).1 -> css_typed (c_n c) t.
Proof.
case=> _ wX wW hs _ t; rewrite /c_get_stabilizer_ops; case: (c_sub c) => /=; last first.
  by case: cz; apply: typed_bdiag; rewrite ?wf_canon.
have wX' := wf_canon wX; have wW' := wf_canon wW.
have [r1 _] := null_cat_null wX' wW'; have [w1 _ _ _] := r1.
set fresh := compute_stabs _ _; have ty u : u \in fresh -> css_typed (c_n c) u.
  by rewrite /fresh -css_stabs_ok //; apply: typed_bdiag.
case: ifP => _ /=; first exact: ty.
case: r => /=; first exact: ty.
by case es: (c_stab c) => [s|]; [apply: hs | rewrite css_stabs_ok //; apply: ty].
Qed.

Lemma c_stab_pauli (c : csscode F) : c_ok c ->
  let sx := c_get_stabilizer_ops_pauli c true in
  let sz := c_get_stabilizer_ops_pauli c false in
  [/\ wf (c_n c) sx, wf (c_n c) sz,
      (sp (c_n c) sx :=: sp (c_n c) (c_x c) :&: kermx (sp (c_n c) (c_z c))^T)%MS
    & (sp (c_n c) sz :=: sp (c_n c) (c_z c) :&: kermx (sp (c_n c) (c_x c))^T)%MS].
Proof.
move=> ok sx sz; have [okq wX wW _ _] := ok.
have [ws es _ _ _] := stab_ops_ok false false okq.
have ty := @c_stab_typed c false false ok.
rewrite -(proj1 (c_stab_q false false wX wW)) /= in ws es.
have [w1 w2 e] := sp_typed ws ty; split=> //.
  have [] // := block_inj (eqmx_trans (eqmx_sym e) (eqmx_trans es (css_center wX wW))).
by have [] // := block_inj (eqmx_trans (eqmx_sym e) (eqmx_trans es (css_center wX wW))).
Qed.

Lemma c_counts (c : csscode F) : c_ok c -> counts (c_n c) (css_mat (c_n c) (c_x c) (c_z c)) (c_dimension c) (c_gauge_dimension c).
Proof. by case=> okq wX wW _ _; rewrite c_dimension_q // c_gauge_dimension_q //; exact: dimension_counts okq. Qed.

(* counting logical and gauge qudits *)
Lemma counts_css n (X W : mat) k g : wf n X -> wf n W -> counts n (css_mat n X W) k g <->
  g = \rank (sp n X *m (sp n W)^T) /\ (n + g = k + (\rank (sp n X) + \rank (sp n W)))%N.
Proof.
move=> wX wW; rewrite (countsG _ _ (wf_css wX wW) (sp_css wX wW)) rank_block gram_block.
set G := sp n X *m (sp n W)^T.
have -> : \rank (block_mx 0 G (- (sp n W *m (sp n X)^T)) 0) = (\rank G + \rank G)%N.
  have -> : sp n W *m (sp n X)^T = G^T by rewrite trmx_mul trmxK.
  rewrite block_mxEv -addsmxE.
  rewrite addsmxC.
  by rewrite addsmxE -block_mxEv rank_block mxrank_opp mxrank_tr.
split=> [[e1 e2]|[-> e2]]; last by split.
by split=> //; lia.
Qed.

Lemma rank_cap_ker m p n (A : 'M[F]_(m, n)) (B : 'M[F]_(p, n)) :
  (\rank (A *m B^T) + \rank (A :&: kermx B^T)%MS = \rank A)%N.
Proof. exact: mxrank_mul_ker. Qed.

(* ---------------------------------------------------------------- logical operators *)
Lemma css_dual_basis n k (X W lx lz : mat) : wf n X -> wf n W -> css_dual n k X W lx lz ->
  logical_basis n k (css_mat n X W) (bdiag n n lx lz).
Proof.
move=> wX wW [[s1 s2] [w1 w2] h1 h2 h3].
have wx : wf (n + n) [seq r ++ nseq n 0 | r <- lx].
  by apply/wfP => r /mapP [q qx ->]; rewrite size_cat size_nseq; move/wfP: w1 => ->.
have wz : wf (n + n) [seq nseq n 0 ++ r | r <- lz].
  by apply/wfP => r /mapP [q qx ->]; rewrite size_cat size_nseq; move/wfP: w2 => ->.
have := mx_bdiag s1 s2 w1 w2; rewrite /bdiag (mx_cat _ _ (m1 := k)) ?size_map // /block_mx => /eq_col_mx [mX mZ].
split.
  apply/dual_pairsP; rewrite ?size_map // mX mZ !symJ_split.
  by rewrite !(trmx0, mulmx0, mul0mx, subr0) h3.
apply/(commP (wf_css wX wW) (wf_bdiag w1 w2)).
have : (sp (n + n) (bdiag n n lx lz) <= scomp (sp (n + n) (css_mat n X W)))%MS.
  rewrite (scomp_eqmx (sp_css wX wW)) (sp_css w1 w2); apply/scompP; rewrite gram_block.
  have e1 : sp n X *m (sp n lz)^T = 0.
    move: h2; rewrite -s2 => /(congr1 trmx); rewrite trmx_mul trmxK trmx0 //.
  have e2 : sp n W *m (sp n lx)^T = 0.
    move: h1; rewrite -s1 => /(congr1 trmx); rewrite trmx_mul trmxK trmx0 //.
  by rewrite e1 e2 oppr0 block_mx0.
by move/scompP.
Qed.

Lemma bind_some (T U : Type) (o : option T) (h : T -> option U) f u : o = Some f -> h f = Some u ->
  (if o is Some f then h f else None) = Some u.
Proof. by move=> ->. Qed.

Theorem c_logicals_ok (c : csscode F) r : c_ok c -> exists lx lz,
  [/\ c_get_logical_ops c r = Some (bdiag (c_n c) (c_n c) lx lz), size lx = c_dimension c, size lz = c_dimension c
    & logical_basis (c_n c) (c_dimension c) (css_mat (c_n c) (c_x c) (c_z c)) (bdiag (c_n c) (c_n c) lx lz)].
Proof.
move=> ok; have [okq wX wW hs hl] := ok; have hc := c_counts ok.
have [g_eq n_eq] := proj1 (counts_css _ _ wX wW) hc.
set n := c_n c in wX wW g_eq n_eq hc *; set k := c_dimension c in g_eq n_eq hc *.
have [l0 [l1 [ef dl]]] : exists lx lz,
    (if css_standard_form c is Some f then css_logicals n k (c_sub c) f else None) = Some (lx, lz) /\
    css_dual n k (c_x c) (c_z c) lx lz.
  rewrite /css_standard_form; case es: (c_sub c).
    have [w1 w2 e1 e2] := c_stab_pauli ok.
    have ne : n = (k + c_gauge_dimension c + (\rank (sp n (c_get_stabilizer_ops_pauli c true))
                 + \rank (sp n (c_get_stabilizer_ops_pauli c false))))%N.
      rewrite e1 e2; have := rank_cap_ker (sp n (c_x c)) (sp n (c_z c)).
      have := rank_cap_ker (sp n (c_z c)) (sp n (c_x c)).
      rewrite -g_eq -mxrank_tr trmx_mul trmxK -g_eq; move: n_eq; rewrite /n; clear; lia.
    have [f [lx [lz [e3 e4 dl]]]] := css_sub_logicals wX wW w1 w2 e1 e2 g_eq ne.
    by exists lx, lz; split=> //; apply: (bind_some e3 e4).
  have gz : c_gauge_dimension c = 0%N by rewrite /c_gauge_dimension es.
  have hz : sp n (c_x c) *m (sp n (c_z c))^T = 0 by apply/eqP; rewrite -mxrank_eq0 -g_eq gz.
  apply: css_stab_logicals => //; move: n_eq; rewrite gz; clear; lia.
have fr : (if css_standard_form c is Some f then
                 if css_logicals n k (c_sub c) f is Some (lx, lz) then Some (bdiag n n lx lz) else None
               else None) = Some (bdiag n n l0 l1).
  by case: (css_standard_form c) ef => // f ->.
have [s0 s1] : size l0 = k /\ size l1 = k by case: dl.
have fresh : exists lx lz, [/\ Some (bdiag n n l0 l1) = Some (bdiag n n lx lz), size lx = k, size lz = k
    & logical_basis n k (css_mat n (c_x c) (c_z c)) (bdiag n n lx lz)].
  by exists l0, l1; split=> //; apply: css_dual_basis.
rewrite /c_get_logical_ops -/n -/k fr.
case el: (c_logs c) => [l|] //; case: r => //.
have [lx [lz [e e']]] := hl _ el; exists lx, lz; rewrite e.
have [_ _ _ hl' _] := okq; have [k' [g' [lb cn]]] := hl' l el.
have [ek _] := counts_unique (wf_css wX wW) cn hc.
move: lb; rewrite ek e => lb; split=> //; have [[sz _ _] _] := lb; move: sz; rewrite size_bdiag; move: e'; clear; lia.
Qed.
End Proofs.
