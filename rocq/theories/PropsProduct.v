(* Properties C42, C44 and C45: hypergraph products, subsystem hypergraph products and two-block codes. *)
From mathcomp Require Import all_ssreflect all_algebra zify.
From Verif Require Import LinAlg RowReduce Classical ClassicalProofs ClassicalProofs2 Symplectic Quantum QuantumProofs
  QuantumOps Css CssForm CssLogs CssProofs CssGauge PropsClassical PropsCss Product.
Set Implicit Arguments.
Unset Strict Implicit.
Unset Printing Implicit Defensive.
Import GRing.Theory.
Local Open Scope ring_scope.

Lemma pair_lt a b i j : (i < a -> j < b -> i * b + j < a * b)%N.
Proof. by nia. Qed.
Lemma pair_div b i j : (j < b -> ((i * b + j) %/ b = i) /\ ((i * b + j) %% b = j))%N.
Proof. by move=> h; rewrite divnMDl ?(leq_ltn_trans _ h) // divn_small // addn0 modnMDl modn_small. Qed.

Section Props.
Variable F : fieldType.
Implicit Types a b : ccode F.

(* the number of logical qudits in terms of the dimensions of the two codes and of their transposes *)
Lemma hgp_dims a b k : code_ok a -> code_ok b ->
  k = (dimension a * dimension b + (size (cc_mat a) - rank a) * (size (cc_mat b) - rank b))%N ->
  forall ka kb kat kbt, has_dim (cc_n a) (cc_mat a) ka -> has_dim (cc_n b) (cc_mat b) kb ->
    has_dim (size (cc_mat a)) (trl (cc_n a) (cc_mat a)) kat -> has_dim (size (cc_mat b)) (trl (cc_n b) (cc_mat b)) kbt ->
  k = (ka * kb + kat * kbt)%N.
Proof.
move=> oka okb -> ka kb kat kbt; have [wA _ _] := oka; have [wB _ _] := okb.
move=> /(has_dimE _ wA) -> /(has_dimE _ wB) ->; rewrite -(dim_ok oka) -(dim_ok okb).
have tr c : sp (size (cc_mat c)) (trl (cc_n c) (cc_mat c)) = sp (size (cc_mat c)) (trl (cc_n c) (cc_mat c)) by [].
have rk (c : ccode F) : code_ok c -> \rank (sp (size (cc_mat c)) (trl (cc_n c) (cc_mat c))) = rank c.
  move=> okc; rewrite (rank_ok okc) (@sp_rank _ _ (cc_n c)) ?size_trl // (mx_trl _ (erefl (size (cc_mat c)))).
  by rewrite mxrank_tr.
move=> /(has_dimE _ (wf_trl _ _)) -> /(has_dimE _ (wf_trl _ _)) ->; by rewrite !rk.
Qed.

(* C42: for all classical codes the constructor returns a stabilizer code with commuting checks, and the number k of its
   logical qudits is ka * kb + kaT * kbT *)
Theorem C42_hgp_code a b set_logicals : code_ok a -> code_ok b ->
  exists c, [/\ hgp a b set_logicals = Some c, c_ok c, c_n c = (cc_n a * cc_n b + size (cc_mat a) * size (cc_mat b))%N
    /\ c_sub c = false, commuting (c_n c) (css_mat (c_n c) (c_x c) (c_z c))
  & forall ka kb kat kbt, has_dim (cc_n a) (cc_mat a) ka -> has_dim (cc_n b) (cc_mat b) kb ->
      has_dim (size (cc_mat a)) (trl (cc_n a) (cc_mat a)) kat -> has_dim (size (cc_mat b)) (trl (cc_n b) (cc_mat b)) kbt ->
      c_dimension c = (ka * kb + kat * kbt)%N /\ counts (c_n c) (css_mat (c_n c) (c_x c) (c_z c)) (ka * kb + kat * kbt) 0].
Proof.
move=> oka okb; have [c [e1 okc ek _ [en ex ez es]]] := hgp_ok set_logicals oka okb.
have [[wq /(_ es) cm _ _ _] _ _ _ _] := okc; exists c; split=> //.
move=> ka kb kat kbt h1 h2 h3 h4; have e := hgp_dims oka okb ek h1 h2 h3 h4; split=> //; rewrite -e.
have h := c_counts okc; by move: (h); rewrite (comm_gauge0 wq cm h).
Qed.

(* the operators set by the constructor are the canonical ones, and they are valid *)
Theorem C42_hgp_logicals a b : code_ok a -> code_ok b ->
  exists c, [/\ hgp a b true = Some c, c_get_logical_ops c false = Some (bdiag (c_n c) (c_n c) (hgp_logs a b).1 (hgp_logs a b).2)
  & logical_basis (c_n c) (c_dimension c) (css_mat (c_n c) (c_x c) (c_z c)) (bdiag (c_n c) (c_n c) (hgp_logs a b).1 (hgp_logs a b).2)].
Proof.
move=> oka okb; have [c [e1 okc ek /(_ isT) el _]] := hgp_ok true oka okb; exists c; split=> //.
have [lx [lz [e _ _ lb]]] := C28_css_logicals false okc; by move: e; rewrite el => -[->].
Qed.

(* the checks are those of the hypergraph product: X check (i, j) acts on the qudits (k, j) of the first sector as row i of
   the first matrix, and on the qudits (i, l) of the second sector as column j of the second one *)
Theorem C42_hgp_checks a b set_logicals c : code_ok a -> code_ok b -> hgp a b set_logicals = Some c ->
  let (n1, n2) := (cc_n a, cc_n b) in let (m1, m2) := (size (cc_mat a), size (cc_mat b)) in
  [/\ size (c_x c) = (m1 * n2)%N, size (c_z c) = (n1 * m2)%N,
    (forall i j, (i < m1)%N -> (j < n2)%N ->
      (forall k l, (k < n1)%N -> (l < n2)%N -> ent (c_x c) (i * n2 + j) (k * n2 + l) = ent (cc_mat a) i k * (j == l)%:R) /\
      (forall k l, (k < m1)%N -> (l < m2)%N ->
         ent (c_x c) (i * n2 + j) (n1 * n2 + (k * m2 + l)) = (i == k)%:R * ent (cc_mat b) l j))
  & forall i j, (i < n1)%N -> (j < m2)%N ->
      (forall k l, (k < n1)%N -> (l < n2)%N -> ent (c_z c) (i * m2 + j) (k * n2 + l) = - ((i == k)%:R * ent (cc_mat b) j l)) /\
      (forall k l, (k < m1)%N -> (l < m2)%N ->
         ent (c_z c) (i * m2 + j) (n1 * n2 + (k * m2 + l)) = ent (cc_mat a) k i * (j == l)%:R)].
Proof.
move=> oka okb e; have [c' [e1 okc _ _ [en -> -> es]]] : exists c', [/\ Some c = Some c', c_ok c', True, True &
    [/\ c_n c' = (cc_n a * cc_n b + size (cc_mat a) * size (cc_mat b))%N, c_x c = hgp_x (cc_n a) (cc_n b) (cc_mat a) (cc_mat b),
     c_z c = hgp_z (cc_n a) (cc_n b) (cc_mat a) (cc_mat b) & c_sub c' = false]].
  have [c' [e1 ok _ _ [e2 e3 e4 e5]]] := hgp_ok set_logicals oka okb; exists c'; rewrite -e e1; split=> //.
  by move: e1; rewrite e => -[->].
have [wA _ _] := oka; have [wB _ _] := okb; clear -wA wB.
set n1 := cc_n a in wA *; set n2 := cc_n b in wB *; set A := cc_mat a in wA *; set B := cc_mat b in wB *.
set m1 := size A; set m2 := size B.
have wk1 : wf (n1 * n2) (kron A (idl F n2)) by apply: wf_kron; rewrite ?wf_idl.
have wk2 : wf (n1 * n2) (mopp (kron (idl F n1) B)) by apply: wf_mopp; apply: wf_kron; rewrite ?wf_idl.
have s1 : size (kron A (idl F n2)) = (m1 * n2)%N by rewrite size_kron size_idl.
have s2 : size (kron (idl F m1) (trl n2 B)) = (m1 * n2)%N by rewrite size_kron size_idl size_trl.
have s3 : size (mopp (kron (idl F n1) B)) = (n1 * m2)%N by rewrite size_mopp size_kron size_idl.
have s4 : size (kron (trl n1 A) (idl F m2)) = (n1 * m2)%N by rewrite size_kron size_idl size_trl.
split; [exact: size_hgp_x | exact: size_hgp_z | |] => i j hi hj; have lt := pair_lt hi hj; split=> k l hk hl.
- rewrite /hgp_x (ent_hcat _ wk1) ?s1 ?s2 ?pair_lt // (ent_kron wA (wf_idl _ _)) ?size_idl ?pair_lt //.
  by have [-> ->] := pair_div i hj; have [-> ->] := pair_div k hl; rewrite ent_mkmat.
- rewrite /hgp_x (ent_hcat _ wk1) ?s1 ?s2 ?lt // ltnNge leq_addr /= addKn.
  rewrite (ent_kron (wf_idl _ _) (wf_trl _ _)) ?size_idl ?size_trl ?pair_lt //.
  by have [-> ->] := pair_div i hj; have [-> ->] := pair_div k hl; rewrite ent_mkmat // ent_trl.
- rewrite /hgp_z (ent_hcat _ wk2) ?s3 ?s4 ?pair_lt // ent_mopp (ent_kron (wf_idl _ _) wB) ?size_idl ?pair_lt //.
  by have [-> ->] := pair_div i hj; have [-> ->] := pair_div k hl; rewrite ent_mkmat.
- rewrite /hgp_z (ent_hcat _ wk2) ?s3 ?s4 ?lt // ltnNge leq_addr /= addKn.
  rewrite (ent_kron (wf_trl _ _) (wf_idl _ _)) ?size_idl ?size_trl ?pair_lt //.
  by have [-> ->] := pair_div i hj; have [-> ->] := pair_div k hl; rewrite ent_mkmat // ent_trl.
Qed.

(* C44: the constructor returns a subsystem code; the stabilizers it sets generate the centre of the gauge group; the number
   of logical qudits is ka * kb *)
Theorem C44_shp_code a b set_logicals : code_ok a -> code_ok b ->
  exists c, [/\ shp a b set_logicals = Some c, c_ok c,
    [/\ c_n c = (cc_n a * cc_n b)%N, c_x c = shp_x (cc_n b) (cc_mat a), c_z c = shp_z (cc_n a) (cc_mat b) & c_sub c],
    (forall v, span (c_n c + c_n c) (c_get_stabilizer_ops c false false).1 v <->
      central (c_n c) (css_mat (c_n c) (c_x c) (c_z c)) v) /\ (c_get_stabilizer_ops c false false).1 = shp_stabs a b
  & forall ka kb, has_dim (cc_n a) (cc_mat a) ka -> has_dim (cc_n b) (cc_mat b) kb -> c_dimension c = (ka * kb)%N /\
      exists g, counts (c_n c) (css_mat (c_n c) (c_x c) (c_z c)) (ka * kb) g].
Proof.
move=> oka okb; have [c [e1 okc ek _ [en ex ez es est]]] := shp_ok set_logicals oka okb; exists c; split=> //.
  by split=> [v |]; [apply: C23_css_stabilizers | rewrite est].
have [wA _ _] := oka; have [wB _ _] := okb => ka kb /(has_dimE _ wA) -> /(has_dimE _ wB) ->.
rewrite -(dim_ok oka) -(dim_ok okb) -ek; split=> //; exists (c_gauge_dimension c); exact: c_counts.
Qed.

Theorem C44_shp_logicals a b : code_ok a -> code_ok b ->
  exists c, [/\ shp a b true = Some c, c_get_logical_ops c false = Some (bdiag (c_n c) (c_n c) (shp_logs a b).1 (shp_logs a b).2)
  & logical_basis (c_n c) (c_dimension c) (css_mat (c_n c) (c_x c) (c_z c)) (bdiag (c_n c) (c_n c) (shp_logs a b).1 (shp_logs a b).2)].
Proof.
move=> oka okb; have [c [e1 okc ek /(_ isT) el _]] := shp_ok true oka okb; exists c; split=> //.
have [lx [lz [e _ _ lb]]] := C28_css_logicals false okc; by move: e; rewrite el => -[->].
Qed.

(* X check (i, j) acts on the qudits (k, j) as row i of the first matrix, Z check (i, j) on the qudits (i, l) as row j of the
   second one *)
Theorem C44_shp_checks a b : code_ok a -> code_ok b ->
  let (n1, n2) := (cc_n a, cc_n b) in let (m1, m2) := (size (cc_mat a), size (cc_mat b)) in
  [/\ size (shp_x n2 (cc_mat a)) = (m1 * n2)%N, size (shp_z n1 (cc_mat b)) = (n1 * m2)%N,
    (forall i j k l, (i < m1)%N -> (j < n2)%N -> (k < n1)%N -> (l < n2)%N ->
      ent (shp_x n2 (cc_mat a)) (i * n2 + j) (k * n2 + l) = ent (cc_mat a) i k * (j == l)%:R)
  & forall i j k l, (i < n1)%N -> (j < m2)%N -> (k < n1)%N -> (l < n2)%N ->
      ent (shp_z n1 (cc_mat b)) (i * m2 + j) (k * n2 + l) = (i == k)%:R * ent (cc_mat b) j l].
Proof.
move=> [wA _ _] [wB _ _]; split; [exact: size_shp_x | exact: size_shp_z | |] => i j k l hi hj hk hl.
  rewrite /shp_x (ent_kron wA (wf_idl _ _)) ?size_idl ?pair_lt //.
  by have [-> ->] := pair_div i hj; have [-> ->] := pair_div k hl; rewrite ent_mkmat.
rewrite /shp_z (ent_kron (wf_idl _ _) wB) ?size_idl ?pair_lt //.
by have [-> ->] := pair_div i hj; have [-> ->] := pair_div k hl; rewrite ent_mkmat.
Qed.

(* C45: TBCode accepts exactly the pairs of commuting square matrices, and returns a stabilizer code *)
Theorem C45_tb_accepts na nb (A B : seq (seq F)) : wf na A -> wf nb B ->
  (exists c, tb_code na nb A B true = Some c) <-> [/\ size A = na, size B = na, nb = na & mcommute na A B].
Proof. exact: tb_accepts. Qed.

Theorem C45_tb_commute r (A B : seq (seq F)) validate : wf r A -> wf r B -> size A = r -> size B = r -> mcommute r A B ->
  exists c, [/\ tb_code r r A B validate = Some c, c_ok c, c_sub c = false, c_n c = (r + r)%N
  & commuting (c_n c) (css_mat (c_n c) (c_x c) (c_z c))].
Proof.
move=> wA wB sA sB cm; have [c [e ok es [en _ _]]] := tb_ok validate wA wB sA sB cm; exists c; split=> //.
by have [[_ /(_ es)]] := ok.
Qed.
End Props.

(* a code whose generator matrix was set (set_generator accepts redundant generators) gives a HGPCode and a SHPCode with
   wrong canonical logical operators: there are more of them than logical qudits *)
Definition rep_checks := b2 [:: [:: 1;1]]%N.
Definition rep_gens := b2 [:: [:: 1;1]; [:: 1;1]]%N.
Theorem C42_redundant_generator_refuted : exists (a0 a : ccode [fieldType of 'F_2]) c,
  [/\ code_ok a0, set_generator a0 rep_gens = Some a, hgp a a true = Some c,
      counts (c_n c) (css_mat (c_n c) (c_x c) (c_z c)) 1 0
    & c_dimension c = 4%N /\ exists L, c_get_logical_ops c false = Some L /\ size L = 8%N].
Proof.
pose a0 := mkcode 2 rep_checks.
pose P (c : csscode [fieldType of 'F_2]) := [&& c_dimension c == 4%N, c_n c == 5%N, c_x c == hgp_x 2 2 rep_checks rep_checks,
  c_z c == hgp_z 2 2 rep_checks rep_checks & if c_get_logical_ops c false is Some L then size L == 8%N else false].
pose Q (a : ccode [fieldType of 'F_2]) := if hgp a a true is Some c then P c else false.
have [a ea hP] : exists2 a, set_generator a0 rep_gens = Some a & Q a by apply: (@some_with _ _ Q); vm_compute.
have [c ec /and5P [/eqP e1 /eqP e2 /eqP e3 /eqP e4 hL]] := @some_with _ (hgp a a true) P hP.
have ok0 : code_ok a0 by [].
exists a0, a, c; split; [exact: ok0 | exact: ea | exact: ec | | ]; last first.
  split; first exact: e1.
  by have [L eL /eqP sL] := some_with hL; exists L.
have [c1 [h1 okc ek _ [n1 x1 z1 s1]]] := hgp_ok false ok0 ok0.
have h := c_counts okc; have [[wq /(_ s1) cm _ _ _] _ _ _ _] := okc; move: (h); rewrite (comm_gauge0 wq cm h) => {}h.
have ek1 : c_dimension c1 = 1%N by rewrite ek; apply/eqP; vm_compute.
by rewrite ek1 n1 x1 z1 in h; rewrite e2 e3 e4.
Qed.

(* non-vacuity *)
Example ex_C42 : code_ok rep3 /\ if hgp rep3 rep3 true is Some c then
  [&& c_n c == 13%N, c_dimension c == 1%N & size (c_x c) == 6%N] else false.
Proof. by split; [split | vm_compute]. Qed.
Example ex_C42_trits : code_ok redundant /\ if hgp redundant redundant true is Some c then
  [&& c_n c == 18%N, c_dimension c == 2%N & c_sub c == false] else false.
Proof. by split; [split | vm_compute]. Qed.
Example ex_C44 : if shp redundant redundant true is Some c then
  [&& c_n c == 9%N, c_dimension c == 1%N & c_gauge_dimension c == 4%N] else false.
Proof. by vm_compute. Qed.
Example ex_C45 : mcommute 2 (b3 [:: [:: 1;2]; [:: 2;1]]%N) (b3 [:: [:: 0;1]; [:: 1;0]]%N) /\
  isSome (tb_code 2 2 (b3 [:: [:: 1;2]; [:: 2;1]]%N) (b3 [:: [:: 0;1]; [:: 1;0]]%N) true) &&
  ~~ isSome (tb_code 2 2 (b3 [:: [:: 1;2]; [:: 0;1]]%N) (b3 [:: [:: 0;1]; [:: 1;0]]%N) true).
Proof.
split; last by vm_compute.
by case=> [|[|i]] [|[|j]] //= _ _; rewrite !big_ord_recl !big_ord0; apply/eqP; vm_compute.
Qed.

Print Assumptions C42_hgp_code.
Print Assumptions C42_hgp_logicals.
Print Assumptions C42_hgp_checks.
Print Assumptions C42_redundant_generator_refuted.
Print Assumptions C44_shp_code.
Print Assumptions C44_shp_logicals.
Print Assumptions C44_shp_checks.
Print Assumptions C45_tb_accepts.
Print Assumptions C45_tb_commute.
