(* Distances of hypergraph product codes (model: Product.v, qldpc/codes/quantum.py:635-878). *)
From mathcomp Require Import all_ssreflect all_algebra zify.
From mathcomp.real_closed Require Import mxtens.
From Verif Require Import LinAlg RowReduce Classical ClassicalProofs ClassicalProofs2 Kron Symplectic Quantum QuantumProofs
  QuantumOps Css CssForm CssLogs CssProofs CssGauge PropsClassical PropsCss ClassicalDist Families FamiliesProofs Product QuantumDist CssDist ErrorRate ShpDist.
Set Implicit Arguments.
Unset Strict Implicit.
Unset Printing Implicit Defensive.
Import GRing.Theory.
Local Open Scope ring_scope.

Section Mx.
Variable F : fieldType.

Lemma ker_img m n p (Q : 'M[F]_(m, n)) (U : 'M[F]_(m, p)) : kermx Q *m U = 0 -> exists C, U = Q *m C.
Proof.
move=> h; have : (U^T <= Q^T)%MS.
  by rewrite (orth_orth Q^T) trmxK; apply/sub_kermxP; rewrite -trmx_mul h trmx0.
by case/submxP => D e; exists D^T; apply: trmx_inj; rewrite trmx_mul trmxK.
Qed.

Lemma row_nz m n (M : 'M[F]_(m, n)) : M != 0 -> exists i, row i M != 0.
Proof.
move=> nM; apply/existsP; apply: contraNT nM => /existsPn hn; apply/eqP/row_matrixP => i; rewrite row0.
by apply/eqP; have := hn i; rewrite negbK.
Qed.

Lemma supp_row m n p (L : 'M[F]_(m, n)) (V : 'M[F]_(n, p)) i : (supp (row i (L *m V)) <= supp V)%N.
Proof.
rewrite /supp big_ord1 [X in (_ <= X)%N]exchange_big; apply: leq_sum => j _; rewrite !mxE.
case: eqP => //= /eqP nj; apply: contraT; rewrite -eqn0Ngt sum_nat_eq0 => /forallP z.
case/eqP: nj; rewrite big1 // => k _; have := z k; rewrite /= eqb0 negbK => /eqP ->; by rewrite mulr0.
Qed.

(* an undetected pair that is not trivial carries a word of one of the two matrices *)
Lemma hgp_lower a b c d (P : 'M[F]_(b, c)) (Q : 'M[F]_(a, d)) (U : 'M[F]_(a, b)) (W : 'M[F]_(d, c)) :
  U *m P = Q *m W -> (forall C, U = Q *m C -> W = C *m P -> False) ->
  (kermx Q != 0 /\ exists r : 'rV_b, [/\ r *m P = 0, r != 0 & (supp r <= supp U)%N]) \/
  (kermx P^T != 0 /\ exists s : 'rV_d, [/\ s *m Q^T = 0, s != 0 & (supp s <= supp W)%N]).
Proof.
move=> h nt; case: (eqVneq (kermx Q *m U) 0) => [z | nz]; last first.
  left; split; first by apply: contra_neq nz => ->; rewrite mul0mx.
  have [i ni] := row_nz nz; exists (row i (kermx Q *m U)); split=> //; last exact: supp_row.
  by rewrite -row_mul -mulmxA h mulmxA mulmx_ker mul0mx row0.
have [C eC] := ker_img z; right.
case: (eqVneq (kermx P^T *m W^T) 0) => [z' | nz]; last first.
  split; first by apply: contra_neq nz => ->; rewrite mul0mx.
  have [i ni] := row_nz nz; exists (row i (kermx P^T *m W^T)); split=> //; last by rewrite -(supp_tr W) supp_row.
  by rewrite -row_mul -mulmxA -trmx_mul -h trmx_mul mulmxA mulmx_ker mul0mx row0.
have [D eD] := ker_img z'.
have eW : W = D^T *m P by apply: trmx_inj; rewrite trmx_mul trmxK.
exfalso; have e0 : Q *m (D^T - C) *m P = 0 by rewrite mulmxBr mulmxBl -!mulmxA -eW mulmxA -eC h subrr.
pose E := (D^T - C) *m P *m pinvmx P; have eE : E *m P = (D^T - C) *m P by rewrite mulmxKpV // submxMl.
apply: (nt (C + E)); last by rewrite mulmxDl eE -mulmxDl addrC subrK.
have eQ : Q *m E = 0 by rewrite /E mulmxA [Q *m (_ *m P)]mulmxA e0 mul0mx.
by rewrite mulmxDr -eC eQ addr0.
Qed.

Lemma ker_delta m n (Q : 'M[F]_(m, n)) k (r : 'rV[F]_k) : kermx Q != 0 -> r != 0 ->
  exists p : 'I_m, (forall C, delta_mx p 0 *m r = Q *m C -> False) /\ supp (delta_mx p 0 *m r) = supp r.
Proof.
move=> nK nr; have [i [p nip]] := mx_nz nK; have [i0 [j nj]] := mx_nz nr; rewrite (ord1 i0) in nj.
exists p; split.
  move=> C e; have : kermx Q *m (delta_mx p 0 *m r) = 0 by rewrite e mulmxA mulmx_ker mul0mx.
  rewrite mulmxA; move: nip; move: (kermx Q) i => K i nip /matrixP /(_ i j); rewrite !mxE big_ord1 !mxE (bigD1 p) //= big1 ?addr0; last first.
    by move=> l nl; rewrite !mxE (negbTE nl) mulr0.
  by rewrite !mxE eqxx mulr1 => /eqP; rewrite mulf_eq0 (negbTE nip) (negbTE nj).
rewrite /supp big_ord1 (bigD1 p) //= [X in (_ + X)%N]big1 ?addn0.
  by apply: eq_bigr => l _; rewrite !mxE big_ord1 !mxE eqxx mul1r.
by move=> l nl; rewrite big1 // => l' _; rewrite !mxE big_ord1 !mxE (negbTE nl) mul0r eqxx.
Qed.

(* conversely such words are undetected and, placed suitably, not trivial *)
Lemma hgp_upper a b c d (P : 'M[F]_(b, c)) (Q : 'M[F]_(a, d)) :
  (forall r : 'rV_b, kermx Q != 0 -> r *m P = 0 -> r != 0 ->
     exists U : 'M_(a, b), [/\ U *m P = 0, forall C, U = Q *m C -> False & supp U = supp r]) /\
  (forall s : 'rV_d, kermx P^T != 0 -> s *m Q^T = 0 -> s != 0 ->
     exists W : 'M_(d, c), [/\ Q *m W = 0, forall C, W = C *m P -> False & supp W = supp s]).
Proof.
split=> r nK e nr; have [p [h1 h2]] := ker_delta nK nr.
  by exists (delta_mx p 0 *m r); split=> //; rewrite -mulmxA e mulmx0.
exists (delta_mx p 0 *m r)^T; split; last by rewrite supp_tr.
  by apply: trmx_inj; rewrite trmx_mul trmxK -mulmxA e mulmx0 trmx0.
by move=> C eC; apply: (h1 C^T); rewrite -trmx_mul -eC trmxK.
Qed.

Lemma supp0 m n : supp (0 : 'M[F]_(m, n)) = 0%N.
Proof. by rewrite /supp big1 // => i _; rewrite big1 // => j _; rewrite mxE eqxx. Qed.
Lemma suppN m n (U : 'M[F]_(m, n)) : supp (- U) = supp U.
Proof. by rewrite /supp; apply: eq_bigr => i _; apply: eq_bigr => j _; rewrite mxE oppr_eq0. Qed.

Lemma supp_row_mx m n (u : 'rV[F]_m) (w : 'rV[F]_n) : supp (row_mx u w) = (supp u + supp w)%N.
Proof. by rewrite /supp !big_ord1 big_split_ord; congr addn; apply: eq_bigr => j _; rewrite ?row_mxEl ?row_mxEr. Qed.
End Mx.

Section Dist.
Variable F : fieldType.
Notation vec := (seq F).
Notation mat := (seq (seq F)).

Lemma ker_dim m (H : mat) k : wf m H -> has_dim m H k -> (kermx (sp m H)^T != 0) = (0 < k)%N.
Proof. by move=> wH /(has_dimE _ wH) ->; rewrite -mxrank_eq0 mxrank_ker mxrank_tr lt0n. Qed.
Lemma ker_dimt m (H : mat) k : wf m H -> has_dim (size H) (trl m H) k -> (kermx (sp m H) != 0) = (0 < k)%N.
Proof.
move=> wH /(has_dimE _ (wf_trl _ _)) ->; rewrite -mxrank_eq0 mxrank_ker lt0n.
by rewrite (sp_rank _ (size_trl m H)) (mx_trl _ (m := size H)) // mxrank_tr.
Qed.

Lemma rank_trl m (H : mat) : \rank (sp (size H) (trl m H)) = \rank (sp m H).
Proof. by rewrite (sp_rank _ (size_trl m H)) (mx_trl _ (m := size H)) // mxrank_tr. Qed.

(* the transposed matrix of a ring code has the same words *)
Lemma ring_words_t n (w : vec) : (1 < n)%N -> let M := mkmat n n (fun i j => if j == (i.+1 %% n)%N then -1 else if j == i then 1 else 0 : F) in
  is_word (size M) (trl n M) w <-> exists a, w = nseq n a.
Proof.
move=> n1 M; have -> : trl n M = mkmat n n (fun i j => if j == ((i + n.-1) %% n)%N then -1 else if j == i then 1 else 0 : F).
  have wt := wf_trl n M; rewrite size_mkmat in wt.
  apply: (mat_ext (size_trl n M) (size_mkmat _ _ _) wt (wf_mkmat _ _ _)) => i j li lj.
  rewrite ent_trl ?size_mkmat // !ent_mkmat // [j == i]eq_sym; congr (if _ then _ else _).
  case: (ltnP j.+1 n) => h; first rewrite [(j.+1 %% n)%N]modn_small //.
    case: i li => [|i] li; first by rewrite add0n modn_small //; lia.
    by rewrite addSnnS prednK 1?ltnW // modnDr modn_small 1?ltnW // eqSS.
  have -> : j = n.-1 by lia.
  rewrite prednK 1?ltnW // modnn; case: i li => [|i] li; first by rewrite add0n modn_small ?eqxx //; lia.
  by rewrite addSnnS prednK 1?ltnW // modnDr modn_small 1?ltnW //; move: li; clear; lia.
rewrite size_mkmat; have ne i : (i < n)%N -> i != ((i + n.-1) %% n)%N /\ ((i + n.-1) %% n < n)%N.
  move=> li; rewrite ltn_mod (ltnW n1); split=> //; case: i li => [|i] li; first by rewrite add0n modn_small; lia.
  by rewrite addSnnS prednK 1?ltnW // modnDr modn_small 1?ltnW //; lia.
apply: iff_trans (word_mkmat _ _ _ _) _; split=> [[sw h]|[a ->]].
  apply: const_word => // i li; have [n2 l2] := ne _ li; have := h _ li; rewrite (@two_terms _ n (nth 0 w) i.+1) //.
  by rewrite addSnnS prednK 1?ltnW // modnDr modn_small 1?ltnW // => /eqP; rewrite subr_eq0 => /eqP.
split=> [|i li]; first by rewrite size_nseq.
have [n2 l2] := ne i li.
by rewrite (@two_terms _ _ (nth 0 (nseq n a))) // !nth_nseq li l2 subrr.
Qed.

Section Sides.
Variables (n1 n2 : nat) (A B : mat).
Hypotheses (wA : wf n1 A) (wB : wf n2 B).
Let m1 := size A.
Let m2 := size B.
Let n := (n1 * n2 + m1 * m2)%N.
Let MA : 'M[F]_(m1, n1) := sp n1 A.
Let MB : 'M[F]_(m2, n2) := sp n2 B.
Let X := hgp_x n1 n2 A B.
Let Z := hgp_z n1 n2 A B.

Lemma spX : (sp n X :=: row_mx (MA *t 1%:M) (1%:M *t MB^T))%MS.
Proof. by rewrite -(mx_hgp_x n2 B wA) /X; case: _ / (size_hgp_x n1 n2 A B). Qed.
Lemma spZ : (sp n Z :=: row_mx (- (1%:M *t MB)) (MA^T *t 1%:M))%MS.
Proof. by rewrite -(mx_hgp_z n1 A wB) /Z; case: _ / (size_hgp_z n1 n2 A B). Qed.

Definition pu (w : 'rV[F]_n) : 'M[F]_(n1, n2) := unvec (lsubmx w).
Definition pw (w : 'rV[F]_n) : 'M[F]_(m1, m2) := unvec (rsubmx w).
Definition mk (U : 'M[F]_(n1, n2)) (W : 'M[F]_(m1, m2)) : 'rV[F]_n := row_mx (tovec U) (tovec W).

Lemma pu_mk U W : pu (mk U W) = U. Proof. by rewrite /pu row_mxKl tovecK. Qed.
Lemma pw_mk U W : pw (mk U W) = W. Proof. by rewrite /pw row_mxKr tovecK. Qed.
Lemma supp_n (w : 'rV[F]_n) : supp w = (supp (pu w) + supp (pw w))%N.
Proof. by rewrite /pu /pw !supp_unvec -supp_row_mx hsubmxK. Qed.
Lemma pu_inj w w' : pu w = pu w' -> pw w = pw w' -> w = w'.
Proof. by move=> /unvec_inj e1 /unvec_inj e2; rewrite -[w]hsubmxK -[w']hsubmxK e1 e2. Qed.

Lemma in_spX w : (w <= sp n X)%MS <-> exists C : 'M_(m1, n2), pu w = MA^T *m C /\ pw w = C *m MB^T.
Proof.
rewrite spX; split=> [/submxP [c ->] | [C [e1 e2]]].
  exists (unvec c); rewrite /pu /pw mul_mx_row row_mxKl row_mxKr; split; rewrite unvec_mul ?trmx1 ?mulmx1 ?mul1mx //.
apply/submxP; exists (tovec C); apply: pu_inj; rewrite /pu /pw mul_mx_row ?row_mxKl ?row_mxKr unvec_mul ?trmx1 ?mulmx1 ?mul1mx tovecK //.
Qed.

Lemma in_spZ w : (w <= sp n Z)%MS <-> exists C : 'M_(n1, m2), pu w = - (C *m MB) /\ pw w = MA *m C.
Proof.
have uN (k l : nat) (c : 'rV[F]_(k * l)) : unvec (- c) = - unvec c by apply/matrixP => i j; rewrite !mxE.
rewrite spZ; split=> [/submxP [c ->] | [C [e1 e2]]].
  exists (unvec c); rewrite /pu /pw mul_mx_row row_mxKl row_mxKr mulmxN uN.
  by split; rewrite unvec_mul ?trmx1 ?mulmx1 ?mul1mx ?trmxK.
apply/submxP; exists (tovec C); apply: pu_inj; rewrite /pu /pw mul_mx_row ?row_mxKl ?row_mxKr ?mulmxN ?uN unvec_mul;
  by rewrite ?trmx1 ?mulmx1 ?mul1mx ?tovecK ?trmxK.
Qed.

Lemma orthX (w : 'rV[F]_n) : w *m (sp n X)^T = 0 <-> MA *m pu w + pw w *m MB = 0.
Proof.
have -> : (w *m (sp n X)^T = 0) <-> (w *m (row_mx (MA *t 1%:M) (1%:M *t MB^T))^T = 0).
  by rewrite /X; have := mx_hgp_x n2 B wA; move=> <-; case: _ / (size_hgp_x n1 n2 A B).
rewrite -{1}[w]hsubmxK tr_row_mx mul_row_col; set y := _ + _.
have -> : MA *m pu w + pw w *m MB = unvec y.
  have uD (k l : nat) (c c' : 'rV[F]_(k * l)) : unvec (c + c') = unvec c + unvec c' by apply/matrixP => i j; rewrite !mxE.
  by rewrite /y uD !trmx_tens !unvec_mul !trmx1 mulmx1 mul1mx !trmxK.
by split=> [-> | /eqP]; [exact: unvec0 | rewrite unvec_eq0 => /eqP].
Qed.

Lemma orthZ (w : 'rV[F]_n) : w *m (sp n Z)^T = 0 <-> MA^T *m pw w = pu w *m MB^T.
Proof.
have -> : (w *m (sp n Z)^T = 0) <-> (w *m (row_mx (- (1%:M *t MB)) (MA^T *t 1%:M))^T = 0).
  by rewrite /Z; have := mx_hgp_z n1 A wB; move=> <-; case: _ / (size_hgp_z n1 n2 A B).
rewrite -{1}[w]hsubmxK tr_row_mx mul_row_col; set y := _ + _.
have -> : (MA^T *m pw w = pu w *m MB^T) <-> unvec y = 0.
  have uD (k l : nat) (c c' : 'rV[F]_(k * l)) : unvec (c + c') = unvec c + unvec c' by apply/matrixP => i j; rewrite !mxE.
  have uN (k l : nat) (c : 'rV[F]_(k * l)) : unvec (- c) = - unvec c by apply/matrixP => i j; rewrite !mxE.
  rewrite /y linearN /= mulmxN uD uN !trmx_tens !unvec_mul !trmx1 mulmx1 mul1mx !trmxK addrC.
  by split=> [-> | /eqP]; rewrite ?subrr // subr_eq0 => /eqP.
by split=> [-> | /eqP]; [exact: unvec0 | rewrite unvec_eq0 => /eqP].
Qed.

(* nontrivial operators of a code with commuting checks *)
Lemma tnonX v : tnon n X Z v <-> [/\ size v = n, MA^T *m pw (rv n v) = pu (rv n v) *m MB^T
  & forall C, pu (rv n v) = MA^T *m C -> pw (rv n v) = C *m MB^T -> False].
Proof.
have cz : (sp n Z :&: kermx (sp n X)^T :=: sp n Z)%MS.
  apply/capmx_idPl/sub_kermxP; apply: trmx_inj; rewrite trmx_mul trmxK trmx0; exact: hgp_commute.
split=> -[sv h1 h2]; split=> //.
- apply/orthZ; move/sub_kermxP: h1 => h1.
  have /submxP [D ->] : (sp n Z <= sp n Z :&: kermx (sp n X)^T)%MS by rewrite cz.
  by rewrite trmx_mul mulmxA h1 mul0mx.
- by move=> C e1 e2; move/negP: h2; apply; apply/in_spX; exists C.
- apply/sub_kermxP; have /submxP [D ->] : (sp n Z :&: kermx (sp n X)^T <= sp n Z)%MS by rewrite cz.
  by rewrite trmx_mul mulmxA; move/orthZ: h1 => ->; rewrite mul0mx.
by apply/negP => /in_spX [C [e1 e2]]; apply: h2 e1 e2.
Qed.

Lemma tnonZ v : tnon n Z X v <-> [/\ size v = n, MA *m pu (rv n v) + pw (rv n v) *m MB = 0
  & forall C, pu (rv n v) = - (C *m MB) -> pw (rv n v) = MA *m C -> False].
Proof.
have cz : (sp n X :&: kermx (sp n Z)^T :=: sp n X)%MS by apply/capmx_idPl/sub_kermxP; exact: hgp_commute.
split=> -[sv h1 h2]; split=> //.
- apply/orthX; move/sub_kermxP: h1 => h1.
  have /submxP [D ->] : (sp n X <= sp n X :&: kermx (sp n Z)^T)%MS by rewrite cz.
  by rewrite trmx_mul mulmxA h1 mul0mx.
- by move=> C e1 e2; move/negP: h2; apply; apply/in_spZ; exists C.
- apply/sub_kermxP; have /submxP [D ->] : (sp n X :&: kermx (sp n Z)^T <= sp n X)%MS by rewrite cz.
  by rewrite trmx_mul mulmxA; move/orthX: h1 => ->; rewrite mul0mx.
by apply/negP => /in_spZ [C [e1 e2]]; apply: h2 e1 e2.
Qed.

(* words of the transposed matrices *)
Lemma nzw_trl m (H : mat) (r : vec) : size r = size H ->
  nzw (size H) (trl m H) r <-> rv (size H) r *m sp m H = 0 /\ rv (size H) r != 0.
Proof.
move=> sr; rewrite nzwE // (_ : (rv (size H) r *m (sp (size H) (trl m H))^T = 0) <-> (rv (size H) r *m sp m H = 0)) //.
have {1}-> : sp m H = (mx m (size H) (trl m H))^T by rewrite (mx_trl _ (m := size H)) // trmxK.
have aux k (K : mat) : size K = k -> rv (size H) r *m (sp (size H) K)^T = 0 <-> rv (size H) r *m (mx k (size H) K)^T = 0.
  by move=> <-.
exact: aux (size_trl m H).
Qed.

Definition candX ka kbt r : Prop := ((0 < ka)%N /\ nzw n2 B r) \/ ((0 < kbt)%N /\ nzw m1 (trl n1 A) r).
Definition candZ kb kat r : Prop := ((0 < kb)%N /\ nzw n1 A r) \/ ((0 < kat)%N /\ nzw m2 (trl n2 B) r).

Lemma x_words ka kbt : has_dim n1 A ka -> has_dim m2 (trl n2 B) kbt ->
  (forall v, tnon n X Z v -> exists2 r, candX ka kbt r & (hwt r <= hwt v)%N) /\
  (forall r, candX ka kbt r -> exists2 v, tnon n X Z v & hwt v = hwt r).
Proof.
move=> ha hb; have ea : (kermx MA^T != 0) = (0 < ka)%N := ker_dim wA ha.
have eb : (kermx MB != 0) = (0 < kbt)%N by exact: ker_dimt wB hb.
split=> [v /tnonX [sv h1 h2] | r].
  have hv := hwt_supp sv; rewrite supp_n in hv.
  have [[k0 [r [e nr le]]] | [k0 [s [e ns le]]]] := hgp_lower (esym h1) h2.
    have sr := size_lrv r; exists (lrv r); last by rewrite (hwt_supp sr) rv_lrv hv (leq_trans le) // leq_addr.
    by left; split; [rewrite -ea | apply/(nzwE _ sr); rewrite rv_lrv].
  have sr := size_lrv s; exists (lrv s); last by rewrite (hwt_supp sr) rv_lrv hv (leq_trans le) // leq_addl.
  by right; split; [rewrite -eb -[MB]trmxK | apply/(nzw_trl _ sr); rewrite rv_lrv; move: e; rewrite trmxK].
have [u1 u2] := hgp_upper MB^T MA^T.
case=> -[k0 nr]; have [[sr _] _] := nr.
  have [e nz] := proj1 (nzwE _ sr) nr; rewrite -ea in k0; have [U [e1 e2 e3]] := u1 _ k0 e nz.
  have sv := size_lrv (mk U 0); exists (lrv (mk U 0)).
    by apply/tnonX; split=> //; rewrite rv_lrv pu_mk pw_mk ?mulmx0 ?e1 // => C /e2.
  by rewrite (hwt_supp sv) (hwt_supp sr) rv_lrv supp_n pu_mk pw_mk supp0 addn0.
have [e nz] := proj1 (nzw_trl _ sr) nr; rewrite -eb -[MB]trmxK in k0; rewrite -[sp n1 A]trmxK in e; have [W [e1 e2 e3]] := u2 _ k0 e nz.
have sv := size_lrv (mk 0 W); exists (lrv (mk 0 W)).
  by apply/tnonX; split=> //; rewrite rv_lrv pu_mk pw_mk ?mul0mx ?e1 // => C _ /e2.
by rewrite (hwt_supp sv) (hwt_supp sr) rv_lrv supp_n pu_mk pw_mk supp0 add0n.
Qed.

Lemma z_words kb kat : has_dim n2 B kb -> has_dim m1 (trl n1 A) kat ->
  (forall v, tnon n Z X v -> exists2 r, candZ kb kat r & (hwt r <= hwt v)%N) /\
  (forall r, candZ kb kat r -> exists2 v, tnon n Z X v & hwt v = hwt r).
Proof.
move=> hb ha; have ea : (kermx MA != 0) = (0 < kat)%N := ker_dimt wA ha.
have eb : (kermx MB^T != 0) = (0 < kb)%N by exact: ker_dim wB hb.
split=> [v /tnonZ [sv h1 h2] | r].
  have hv := hwt_supp sv; rewrite supp_n in hv.
  have h1' : (pu (rv n v))^T *m MA^T = MB^T *m - (pw (rv n v))^T.
    by rewrite mulmxN -!trmx_mul; apply/eqP; rewrite -addr_eq0 -linearD /= h1 trmx0.
  have h2' C : (pu (rv n v))^T = MB^T *m C -> - (pw (rv n v))^T = C *m MA^T -> False.
    move=> e1 e2; apply: (h2 (- C^T)); first by rewrite mulNmx opprK -[LHS]trmxK e1 trmx_mul trmxK.
    by rewrite mulmxN -[MA]trmxK -trmx_mul -e2 linearN /= trmxK opprK.
  have [[k0 [r [e nr le]]] | [k0 [s [e ns le]]]] := hgp_lower h1' h2'.
    have sr := size_lrv r; exists (lrv r); last by move: le; rewrite (hwt_supp sr) rv_lrv hv supp_tr => le; rewrite (leq_trans le) // leq_addr.
    by left; split; [rewrite -eb | apply/(nzwE _ sr); rewrite rv_lrv].
  have sr := size_lrv s; exists (lrv s); last by move: le; rewrite (hwt_supp sr) rv_lrv hv suppN supp_tr => le; rewrite (leq_trans le) // leq_addl.
  by right; split; [rewrite -ea -[MA]trmxK | apply/(nzw_trl _ sr); rewrite rv_lrv; move: e; rewrite trmxK].
have [u1 u2] := hgp_upper MA^T MB^T.
case=> -[k0 nr]; have [[sr _] _] := nr.
  have [e nz] := proj1 (nzwE _ sr) nr; rewrite -eb in k0; have [U [e1 e2 e3]] := u1 _ k0 e nz.
  have sv := size_lrv (mk U^T 0); exists (lrv (mk U^T 0)).
    apply/tnonZ; split=> //; rewrite rv_lrv pu_mk pw_mk.
      by rewrite mul0mx addr0; apply: trmx_inj; rewrite trmx_mul trmxK e1 trmx0.
    by move=> C eC _; apply: (e2 (- C^T)); rewrite mulmxN -trmx_mul -linearN /= -eC trmxK.
  by rewrite (hwt_supp sv) (hwt_supp sr) rv_lrv supp_n pu_mk pw_mk supp0 addn0 supp_tr.
have [e nz] := proj1 (nzw_trl _ sr) nr; rewrite -ea -[MA]trmxK in k0; rewrite -[sp n2 B]trmxK in e; have [W [e1 e2 e3]] := u2 _ k0 e nz.
have sv := size_lrv (mk 0 W^T); exists (lrv (mk 0 W^T)).
  apply/tnonZ; split=> //; rewrite rv_lrv pu_mk pw_mk.
    by rewrite mulmx0 add0r; apply: trmx_inj; rewrite trmx_mul trmxK e1 trmx0.
  by move=> C _ eC; apply: (e2 C^T); rewrite -trmx_mul -eC trmxK.
by rewrite (hwt_supp sv) (hwt_supp sr) rv_lrv supp_n pu_mk pw_mk supp0 add0n supp_tr.
Qed.

Lemma hgp_dist_x ka kbt d : has_dim n1 A ka -> has_dim m2 (trl n2 B) kbt -> is_tdist true n (css_mat n X Z) d <->
  ((exists2 r, candX ka kbt r & hwt r = d) /\ (forall r, candX ka kbt r -> (d <= hwt r)%N)).
Proof.
by move=> ha hb; have [h1 h2] := x_words ha hb; rewrite is_tdistE ?wf_hgp_x ?wf_hgp_z //; apply: min_iff.
Qed.
Lemma hgp_dist_z kb kat d : has_dim n2 B kb -> has_dim m1 (trl n1 A) kat -> is_tdist false n (css_mat n X Z) d <->
  ((exists2 r, candZ kb kat r & hwt r = d) /\ (forall r, candZ kb kat r -> (d <= hwt r)%N)).
Proof.
by move=> ha hb; have [h1 h2] := z_words ha hb; rewrite is_tdistE ?wf_hgp_x ?wf_hgp_z //; apply: min_iff.
Qed.
End Sides.
End Dist.
