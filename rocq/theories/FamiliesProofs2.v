(* Reed-Muller codes: proofs. *)
From mathcomp Require Import all_ssreflect all_algebra zify.
From Verif Require Import LinAlg RowReduce Classical ClassicalProofs ClassicalProofs2 ClassicalDist Families FamiliesProofs.
Set Implicit Arguments.
Unset Strict Implicit.
Unset Printing Implicit Defensive.
Import GRing.Theory.
Local Open Scope ring_scope.

Section Proofs.
Variable F : fieldType.
Notation vec := (seq F).
Notation mat := (seq (seq F)).

(* the rows of G are independent, and d is the minimum weight of their nonzero combinations *)
Definition gen_good (n : nat) (G : mat) (d : nat) : Prop :=
  [/\ wf n G, row_free (sp n G), (0 < d)%N,
      exists v, [/\ size v = n, (rv n v <= sp n G)%MS & hwt v = d]
    & forall v, size v = n -> (rv n v <= sp n G)%MS -> (0 < hwt v)%N -> (d <= hwt v)%N].

Lemma hwt_cat (u v : vec) : hwt (u ++ v) = (hwt u + hwt v)%N. Proof. exact: count_cat. Qed.
Lemma hwt_le (v : vec) : (hwt v <= size v)%N. Proof. exact: count_size. Qed.
Lemma hwt_triangle (u b : vec) : size u = size b -> (hwt b <= hwt u + hwt (vadd u b))%N.
Proof.
elim: u b => [|x u IH] [|y b] //= [s]; have := IH b s; rewrite /hwt /= -/(vadd u b).
case: (eqVneq y 0) => [->|ny] /=; first by lia.
by case: (eqVneq x 0) => [->|nx] /=; rewrite ?add0r ?ny /=; lia.
Qed.

Lemma vadd0r n (u : vec) : size u = n -> vadd u (vzero F n) = u.
Proof.
move=> <-; apply: (@eq_from_nth _ 0) => [|i _]; first by rewrite size_vadd // size_vzero.
by rewrite nth_vadd ?size_vzero // nth_vzero addr0.
Qed.
Lemma hwt0 n (v : vec) : size v = n -> (hwt v == 0)%N -> v = vzero F n.
Proof.
move=> <-; elim: v => //= x v IH; rewrite /hwt /= addn_eq0 eqb0 negbK => /andP [/eqP -> /IH ->].
by rewrite /vzero size_nseq.
Qed.

Lemma hcatE (A : mat) : [seq a ++ a | a <- A] = hcat A A.
Proof. by elim: A => //= a A ->. Qed.
Lemma hcat0E k (B : mat) : [seq nseq k 0 ++ b | b <- B] = hcat (zerol F (size B) k) B.
Proof. by elim: B => //= b B ->. Qed.

Section Step.
Variables (n : nat) (A B : mat).
Let G : mat := [seq a ++ a | a <- A] ++ [seq nseq n 0 ++ b | b <- B].
Hypotheses (wA : wf n A) (wB : wf n B).

Lemma step_mx : mx (size A + size B) (n + n) G = block_mx (sp n A) (sp n A) 0 (sp n B).
Proof.
rewrite /G hcatE hcat0E mx_cat ?size_hcat // mx_hcat // mx_hcat ?size_zerol ?wf_zerol // mx_zerol.
by rewrite block_mxEv.
Qed.
Lemma step_size : size G = (size A + size B)%N. Proof. by rewrite size_cat !size_map. Qed.
Lemma step_span (v : vec) : size v = (n + n)%N -> (rv (n + n) v <= sp (n + n) G)%MS <->
  exists u b, [/\ size u = n, size b = n, (rv n u <= sp n A)%MS, (rv n b <= sp n B)%MS & v = u ++ vadd u b].
Proof.
move=> sv; rewrite /sp step_size step_mx; split.
  case/submxP => D e; exists (lrv (lsubmx D *m sp n A)), (lrv (rsubmx D *m sp n B)).
  rewrite !size_lrv !rv_lrv !submxMl; split=> //; apply: (@rv_inj _ (n + n)) => //.
    by rewrite size_cat size_vadd !size_lrv.
  rewrite e rv_cat ?size_lrv // rv_add ?size_lrv // !rv_lrv -[D in LHS]hsubmxK mul_row_block mulmx0 addr0.
  by [].
case=> u [b [su sb /submxP [D1 e1] /submxP [D2 e2] ->]].
apply/submxP; exists (row_mx D1 D2); rewrite mul_row_block mulmx0 addr0 -e1 -e2 rv_cat // rv_add ?su ?sb //.
Qed.

Lemma step_good dA dB : gen_good n A dA -> gen_good n B dB -> (dA + dA)%N = dB -> gen_good (n + n) G dB.
Proof.
move=> [_ fA pA [u [su uA hu]] lA] [_ fB pB _ lB] ed; split=> //.
- by rewrite wf_cat; apply/andP; split; apply/wfP => r /mapP [x hx ->]; rewrite size_cat ?size_nseq ?(wfP _ _ wA _ hx) ?(wfP _ _ wB _ hx).
- rewrite /row_free /sp step_size step_mx.
  have -> : block_mx (sp n A) (sp n A) 0 (sp n B) = block_mx (sp n A) 0 0 (sp n B) *m block_mx 1%:M 1%:M 0 1%:M.
    by rewrite mulmx_block !mulmx0 !mul0mx !mulmx1 !addr0 !add0r.
  rewrite mxrankMfree; last by rewrite row_free_unit unitmxE det_ublock !det1 mulr1 unitr1.
  by rewrite rank_diag_block_mx (eqP fA) (eqP fB).
- exists (u ++ vadd u (vzero F n)); split.
  + by rewrite size_cat size_vadd ?size_vzero ?su.
  + apply/step_span; first by rewrite size_cat size_vadd ?size_vzero ?su.
    by exists u, (vzero F n); rewrite size_vzero rv_zero sub0mx.
  by rewrite vadd0r // hwt_cat hu.
move=> v sv /(step_span sv) [u' [b [su' sb hA hB ->]]]; rewrite hwt_cat.
case: (posnP (hwt b)) => [/eqP /(hwt0 sb) -> | pb].
  rewrite vadd0r // => h; rewrite -ed; have := lA _ su' hA; lia.
move=> _; have := lB _ sb hB pb; have := @hwt_triangle u' b; rewrite su' sb => /(_ erefl); lia.
Qed.
End Step.

Lemma sp_ones n (v : vec) : size v = n -> (rv n v <= sp n [:: nseq n 1])%MS <-> exists a, v = nseq n a.
Proof.
move=> sv; rewrite -(combP _ sv); split=> [[c [sc _ h]]|[a ->]].
  exists (nth 0 c 0); apply: (@eq_from_nth _ 0) => [|i li]; rewrite ?size_nseq // nth_nseq; rewrite sv in li.
  by rewrite (h i li) li big_ord1 /= nth_nseq li mulr1.
exists [:: a]; split=> //; first by rewrite size_nseq.
by move=> j lj; rewrite big_ord1 /= !nth_nseq lj mulr1.
Qed.

Lemma ones_good n : (0 < n)%N -> gen_good n [:: nseq n (1 : F)] n.
Proof.
move=> n0; split=> //.
- by rewrite wf_cons size_nseq eqxx.
- rewrite /row_free /= rank_rV; rewrite eqb1; apply/eqP => /matrixP /(_ 0 (Ordinal n0)).
  by rewrite !mxE /ent /= nth_nseq n0; apply/eqP; rewrite oner_neq0.
- exists (nseq n 1); split; rewrite ?size_nseq //; first by apply/sp_ones; rewrite ?size_nseq //; exists 1.
  by rewrite /hwt count_nseq oner_neq0 mul1n.
move=> v sv /(sp_ones sv) [a ->]; rewrite /hwt count_nseq; case: (a != 0); lia.
Qed.

Lemma id_good n : (0 < n)%N -> gen_good n (idl F n) 1.
Proof.
move=> n0; have e : (sp n (idl F n) :=: 1%:M)%MS by rewrite /sp size_idl mx_idl.
split=> //; first exact: wf_idl.
- by rewrite /row_free e mxrank1 size_idl.
exists (vunit F n 0); split; [exact: size_vunit | by rewrite e submx1 |].
have -> : vunit F n 0 = 1 :: nseq n.-1 0.
  apply: (@eq_from_nth _ 0) => [|i]; rewrite size_vunit /= ?size_nseq ?prednK // => li; rewrite nth_mkseq //.
  by case: i li => // i li /=; rewrite nth_nseq; case: ifP.
by rewrite /hwt /= oner_neq0 count_nseq eqxx.
Qed.

Lemma rm_good order m : (order <= m)%N -> gen_good (2 ^ m) (rm_generator F order m) (2 ^ (m - order)).
Proof.
elim: m order => [|m IH] [|r] // le; rewrite ?subn0.
- exact: ones_good.
- by rewrite /= ; apply: ones_good; rewrite expn_gt0.
rewrite [rm_generator _ _ _]/=; case: eqP => [[->]|ne]; first by rewrite subnn; apply: id_good; rewrite expn_gt0.
have lt : (r < m)%N by lia.
have hA := IH r.+1 lt; have hB := IH r (ltnW lt).
have [wA _ _ _ _] := hA; have [wB _ _ _ _] := hB.
have := step_good wA wB hA hB; rewrite addnn -mul2n -expnS subSS addnn -mul2n -expnS.
by apply; congr (_ ^ _)%N; lia.
Qed.

Lemma rm_size order m : (order <= m)%N -> size (rm_generator F order m) = (\sum_(i < order.+1) 'C(m, i))%N.
Proof.
elim: m order => [|m IH] [|r] // le; rewrite ?big_ord1 ?bin0 // [rm_generator _ _ _]/=.
case: eqP => [[->]|ne].
  rewrite size_idl -[2%N]/(1 + 1)%N expnDn; apply: eq_bigr => i _; by rewrite !exp1n !muln1.
rewrite size_cat !size_map !IH; [|lia|lia].
rewrite [RHS]big_ord_recl /= bin0 [in LHS]big_ord_recl /= bin0 -addnA; congr addn.
by rewrite -big_split /=; apply: eq_bigr => i _; rewrite /bump /= add1n binS.
Qed.

Lemma rm_ok order m : (0 < order <= m)%N -> exists c, [/\ reed_muller F order m = Some (c, Dist (2 ^ (m - order))),
  cc_n c = (2 ^ m)%N, code_ok c, has_dim (cc_n c) (cc_mat c) (\sum_(i < order.+1) 'C(m, i)) /\ dimension c = (\sum_(i < order.+1) 'C(m, i))%N
  & is_dist (cc_n c) (cc_mat c) (2 ^ (m - order)) /\
    forall w, size w = (2 ^ m)%N -> is_word (cc_n c) (cc_mat c) w <-> exists x, is_comb (2 ^ m) (rm_generator F order m) x w].
Proof.
case/andP => p le; have [wG fG pd [v [sv vG hv]] low] := rm_good le; set G := rm_generator F order m in wG fG vG low *.
have wH := wf_null_space wG.
have words w : size w = (2 ^ m)%N -> is_word (2 ^ m) (null_space (2 ^ m) G) w <-> (rv (2 ^ m) w <= sp (2 ^ m) G)%MS.
  by move=> sw; rewrite -(combP _ sw); apply: from_generator_words.
have hd : has_dim (2 ^ m) (null_space (2 ^ m) G) (size G).
  apply/(has_dimE _ wH); rewrite -(size_null_space wH) -(eqP fG).
  by have [fN _] := null_space_spec wH; rewrite -(rref_rank fN) (sp_null_null wG).
have sG : size G = (\sum_(i < order.+1) 'C(m, i))%N by apply: rm_size.
exists (CCode (2 ^ m) (null_space (2 ^ m) G) None (Some (size G))); rewrite /dimension /= -sG; split=> //.
- by rewrite /reed_muller ltnNge le (gtn_eqF p) generator_mk.
- by split=> //= k [<-].
split; last by move=> w sw; rewrite words // combP.
split.
  exists v; split=> //; first exact/words.
  by apply/nz_hwt; rewrite hv.
by move=> w hw /nz_hwt pw; have [sw _] := hw; apply: low => //; apply/words.
Qed.
End Proofs.
