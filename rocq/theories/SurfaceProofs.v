(* Rotated surface codes: commuting checks, one logical qudit, distances.  Proofs. *)
From mathcomp Require Import all_ssreflect all_algebra zify ring.
From Verif Require Import LinAlg RowReduce Classical ClassicalProofs ClassicalProofs2 ClassicalDist.
From Verif Require Import Symplectic Quantum QuantumProofs QuantumLogs Css CssLogs CssProofs CssGauge QuantumDist CssDist CssCert Grid Surface.
Set Implicit Arguments.
Unset Strict Implicit.
Unset Printing Implicit Defensive.
Import GRing.Theory.
Local Open Scope ring_scope.

Section Proofs.
Variable F : fieldType.
Notation vec := (seq F).
Notation mat := (seq (seq F)).

Lemma foldl_split (T U : Type) (chk : T -> U) (skip kx kz : pred T) (ts : seq T) (A B : seq U) :
  foldl (fun (st : seq U * seq U) t => if skip t then st else if kx t then (rcons st.1 (chk t), st.2)
                                        else if kz t then (st.1, rcons st.2 (chk t)) else st) (A, B) ts =
  (A ++ [seq chk t | t <- ts & ~~ skip t && kx t], B ++ [seq chk t | t <- ts & [&& ~~ skip t, ~~ kx t & kz t]]).
Proof.
elim: ts A B => [|t ts IH] A B /=; first by rewrite !cats0.
case: (skip t) => /=; first by rewrite IH.
case: (kx t) => /=; first by rewrite IH cat_rcons.
by case: (kz t) => /=; rewrite IH ?cat_rcons.
Qed.

Lemma tdist_unique x n (A : mat) d d' : is_tdist x n A d -> is_tdist x n A d' -> d = d'.
Proof.
move=> [[v [sv nv ev]] h] [[v' [sv' nv' ev']] h'].
by apply/eqP; rewrite eqn_leq; apply/andP; split; [rewrite -ev'; apply: h | rewrite -ev; apply: h'].
Qed.

(* positions of the qudits *)
Section Pos.
Variables (r c : nat).
Hypothesis c0 : (0 < c)%N.
Definition gix (a b : nat) : nat := (a.-1 * c + b.-1)%N.
Definition gpa (q : nat) : nat := (q %/ c).+1.
Definition gpb (q : nat) : nat := (q %% c).+1.
Lemma g_pos q : (q < r * c)%N -> inr r c (gpa q) (gpb q) /\ gix (gpa q) (gpb q) = q.
Proof.
move=> lq; rewrite /inr /gix /gpa /gpb /= -divn_eq ltn_pmod //; split=> //.
by rewrite andbT ltn_divLR.
Qed.
Lemma g_ix a b : inr r c a b -> [/\ (gix a b < r * c)%N, gpa (gix a b) = a & gpb (gix a b) = b].
Proof.
case/andP=> /andP [a0 ar] /andP [b0 bc]; have lb : (b.-1 < c)%N by rewrite prednK.
rewrite /gix /gpa /gpb divnMDl // modnMDl divn_small // modn_small // addn0 !prednK //; split=> //.
apply: (@leq_trans (a.-1 * c + c)%N); first by rewrite ltn_add2l.
by rewrite addnC -mulSn prednK // leq_mul2r ar orbT.
Qed.
(* the transposed grid *)
Lemma gt_pos q : (q < r * c)%N -> inr c r (gpb q) (gpa q) /\ (fun a b => gix b a) (gpb q) (gpa q) = q.
Proof. by move=> /g_pos [h1 h2]; split=> //; rewrite /inr andbC. Qed.
Lemma gt_ix a b : inr c r a b -> [/\ (gix b a < r * c)%N, gpb (gix b a) = a & gpa (gix b a) = b].
Proof. by rewrite /inr andbC => /g_ix []. Qed.

Lemma in_corners a b x y : ((x, y) \in corners a b) = (((x == a) || (x == a.+1)) && ((y == b) || (y == b.+1))).
Proof. by rewrite /corners !inE !xpair_eqE; case: (x == a); case: (x == a.+1); case: (y == b); case: (y == b.+1). Qed.

Lemma rv_sf a b : rv (r * c) (sf_check F r c a b) = V (r * c) gpa gpb (tile F a b).
Proof.
apply/rowP => q; rewrite !mxE nth_mkseq ?ltn_ord // in_corners /tile; by case: ifP.
Qed.

Lemma size_sf a b : size (sf_check F r c a b) = (r * c)%N. Proof. by rewrite size_mkseq. Qed.

Lemma sgE q : sg F (gpa q) (gpb q) = if odd (q %/ c + q %% c) then -1 else 1.
Proof.
by rewrite /sg /gpa /gpb addSn addnS -signr_odd /= negbK; case: odd; rewrite ?expr1 ?expr0.
Qed.

Lemma rv_neg a b : rv (r * c) (head [::] (negate_cols (default_conjugate r c) [:: sf_check F r c a b])) =
  V (r * c) gpa gpb (fun i j => sg F i j * tile F a b i j).
Proof.
apply/rowP => q; rewrite !mxE /= nth_mkseq ?size_sf // mem_filter mem_iota add0n /= ltn_ord andbT sgE nth_mkseq // in_corners /tile.
by case: odd; case: ifP => _; rewrite ?mul1r ?mulr0 ?oppr0 ?mulN1r.
Qed.

(* a tile with two qudits is not dropped *)
Lemma two_qudits a b i j i' j' : inr r c i j -> inr r c i' j' -> (i, j) != (i', j') ->
  (i, j) \in corners a b -> (i', j') \in corners a b -> count (fun x => x != 0) (sf_check F r c a b) <> 1%N.
Proof.
move=> h h' ne hc hc' e; have [l1 ea eb] := g_ix h; have [l2 ea' eb'] := g_ix h'.
have := @hits F (r * c) (sf_check F r c a b) (fun q => (q == gix i' j') : nat) 2 (size_sf _ _).
rewrite /hwt e ltnn => hh; suff : is_true false by [].
have nq : gix i j != gix i' j'.
  by apply: contraNneq ne => e2; move: ea eb; rewrite e2 ea' eb' => -> ->.
have val1 i1 j1 : inr r c i1 j1 -> (i1, j1) \in corners a b -> nth 0 (sf_check F r c a b) (gix i1 j1) != 0.
  move=> h1 hc1; have [lq e1 e2] := g_ix h1; rewrite nth_mkseq //.
  by rewrite -/(gpa (gix i1 j1)) -/(gpb (gix i1 j1)) e1 e2 hc1 oner_neq0.
apply: hh => -[_|[_|//]].
  by exists (gix i j); rewrite l1 val1 // (negbTE nq).
by exists (gix i' j'); rewrite l2 val1 // eqxx.
Qed.
End Pos.

Section Code.
Variables (order r c : nat).
Hypotheses (r1 : (1 < r)%N) (c1 : (1 < c)%N) (o2 : (order <= 2)%N -> 1 + 1 = 0 :> F).
Let n := (r * c)%N.
Let c0 : (0 < c)%N. Proof. by apply: ltnW. Qed.
Let r0 : (0 < r)%N. Proof. by apply: ltnW. Qed.
Let XZ := sf_rotated_checks F r c.
Let X := XZ.1.
Let Z0 := XZ.2.
Let Z := if (2 < order)%N then negate_cols (default_conjugate r c) Z0 else Z0.

Let chk (t : nat * nat) := sf_check F r c t.1 t.2.
Let ts := [seq (row, col) | row <- iota 0 r.+1, col <- iota 0 c.+1].
Let skip (t : nat * nat) := count (fun x => x != 0) (chk t) == 1%N.
Let kx (t : nat * nat) := (odd t.1 == odd t.2) && (0 < t.1 < r)%N.
Let kz (t : nat * nat) := (odd t.1 != odd t.2) && (0 < t.2 < c)%N.
Lemma checks_E : XZ = ([seq chk t | t <- ts & ~~ skip t && kx t], [seq chk t | t <- ts & [&& ~~ skip t, ~~ kx t & kz t]]).
Proof.
have := foldl_split chk skip kx kz ts [::] [::]; rewrite !cat0s => <-.
rewrite /XZ /sf_rotated_checks -/ts; elim: ts ([::], [::]) => // t us IH st0; rewrite [LHS]IH [RHS]/=; congr foldl.
by rewrite -/(chk t) -/(skip t) /kx /kz; case: (skip t) => //; case: (odd t.1 == odd t.2).
Qed.

Lemma ts_mem a b : ((a, b) \in ts) = ((a <= r) && (b <= c))%N.
Proof.
apply/allpairsP/idP => [[[a' b'] [ha hb [-> ->]]] | /andP [ha hb]].
  by move: ha hb; rewrite !mem_iota !add0n !ltnS /= => -> ->.
by exists (a, b); rewrite !mem_iota !add0n !ltnS.
Qed.

Lemma X_mem x : x \in X <-> exists a b, ptile r c false a b /\ x = sf_check F r c a b.
Proof.
rewrite /X checks_E; split.
  case/mapP => -[a b]; rewrite mem_filter ts_mem => /andP [/andP [_ /andP [/= ho la]] /andP [ha hb]] ->.
  exists a, b; split=> //; rewrite /ptile la hb /= oddD; by move: ho; case: odd; case: odd.
move=> [a [b [/and3P [la lb ho] ->]]]; apply/mapP; exists (a, b) => //; rewrite mem_filter ts_mem /kx /= la lb !andbT.
have -> : odd a == odd b by move: ho; rewrite oddD; case: odd; case: odd.
rewrite andbT; apply/andP; split; last by lia.
apply/eqP; apply: (@two_qudits r c c0 a b a (maxn b 1) a.+1 (maxn b 1)); rewrite ?in_corners /inr ?xpair_eqE; lia.
Qed.

Lemma Z0_mem x : x \in Z0 <-> exists a b, ptile c r true b a /\ x = sf_check F r c a b.
Proof.
rewrite /Z0 checks_E; split.
  case/mapP => -[a b]; rewrite mem_filter ts_mem => /andP [/and3P [_ _ /andP [/= ho la]] /andP [ha hb]] ->.
  exists a, b; split=> //; rewrite /ptile la ha /= oddD; by move: ho; case: odd; case: odd.
move=> [a [b [/and3P [la lb ho] ->]]]; apply/mapP; exists (a, b) => //; rewrite mem_filter ts_mem /kx /kz /= la lb !andbT.
have -> : (odd a == odd b) = false by move: ho; rewrite oddD; case: odd; case: odd.
rewrite !andbT; apply/andP; split; last by lia.
apply/eqP; apply: (@two_qudits r c c0 a b (maxn a 1) b (maxn a 1) b.+1); rewrite ?in_corners /inr ?xpair_eqE; lia.
Qed.

(* the tiles of type W of the other type are the tiles of type P of the transposed grid *)
Lemma wtileE a b : wtile r c false a b = ptile c r true b a.
Proof. by rewrite /wtile /ptile addnC; case: odd; rewrite ?andbF //= andbCA. Qed.
Lemma wtileE' a b : wtile c r true b a = ptile r c false a b.
Proof. by rewrite /wtile /ptile addnC; case: odd; rewrite ?andbF //= andbCA. Qed.

Lemma wX : wf n X.
Proof. by apply/wfP => x /X_mem [a [b [_ ->]]]; rewrite size_sf. Qed.
Lemma rv_X a b : rv n (sf_check F r c a b) = V n (gpa c) (gpb c) (fun i j => 1 * tile F a b i j).
Proof. by rewrite rv_sf; apply/rowP => q; rewrite !mxE mul1r. Qed.

Definition zcheck a b : vec := if (2 < order)%N then head [::] (negate_cols (default_conjugate r c) [:: sf_check F r c a b]) else sf_check F r c a b.
Lemma Z_mem x : x \in Z <-> exists a b, ptile c r true b a /\ x = zcheck a b.
Proof.
rewrite /Z /zcheck; case: ifP => _; last exact: Z0_mem.
split=> [/mapP [y /Z0_mem [a [b [h ->]]] ->] | [a [b [h ->]]]]; first by exists a, b.
by apply/mapP; exists (sf_check F r c a b) => //; apply/Z0_mem; exists a, b.
Qed.
Lemma size_zcheck a b : size (zcheck a b) = n.
Proof. by rewrite /zcheck; case: ifP => _ /=; rewrite ?size_mkseq. Qed.
Lemma wZ : wf n Z.
Proof. by apply/wfP => x /Z_mem [a [b [_ ->]]]; rewrite size_zcheck. Qed.
Lemma rv_Z a b : rv n (zcheck a b) = V n (gpa c) (gpb c) (fun i j => sg F i j * tile F a b i j).
Proof.
rewrite /zcheck; case: ltnP => ho; first exact: rv_neg.
rewrite rv_sf; apply/rowP => q; rewrite !mxE sgE; have -> : -1 = 1 :> F by apply/eqP; rewrite eq_sym -addr_eq0; apply/eqP; exact: o2.
by rewrite if_same mul1r.
Qed.
Lemma V_tr f : V n (gpb c) (gpa c) (fun a b => f b a) = V n (gpa c) (gpb c) f :> 'rV[F]_n.
Proof. by []. Qed.

Let one (a b : nat) : F := 1.
Let one1 a b : one a b * one a b = 1. Proof. by rewrite /one mulr1. Qed.
Let sgone a b : sg F a b = sg F a b * one a b. Proof. by rewrite /one mulr1. Qed.
Let sg1 a b : sg F a b * sg F a b = 1. Proof. by rewrite /sg -exprD addnn -signr_odd odd_double expr0. Qed.
Let onesg a b : one a b = sg F a b * sg F a b. Proof. by rewrite sg1. Qed.

Lemma X1 x : x \in X -> exists a b, ptile r c false a b /\ rv n x = V n (gpa c) (gpb c) (fun i j => one i j * tile F a b i j).
Proof. by move=> /X_mem [a [b [h ->]]]; exists a, b; rewrite rv_X. Qed.
Lemma X2 a b : ptile r c false a b -> exists2 x, x \in X & rv n x = V n (gpa c) (gpb c) (fun i j => one i j * tile F a b i j).
Proof. by move=> h; exists (sf_check F r c a b); [apply/X_mem; exists a, b | rewrite rv_X]. Qed.
Lemma Z1 x : x \in Z -> exists a b, wtile r c false a b /\ rv n x = V n (gpa c) (gpb c) (fun i j => sg F i j * tile F a b i j).
Proof. by move=> /Z_mem [a [b [h ->]]]; exists a, b; rewrite rv_Z wtileE. Qed.
Lemma Z2 a b : wtile r c false a b -> exists2 x, x \in Z & rv n x = V n (gpa c) (gpb c) (fun i j => sg F i j * tile F a b i j).
Proof. by rewrite wtileE => h; exists (zcheck a b); [apply/Z_mem; exists a, b | rewrite rv_Z]. Qed.

Lemma tile_tr a b i j : tile F b a j i = tile F a b i j.
Proof. by rewrite /tile andbC. Qed.
Lemma tZ1 x : x \in Z -> exists b a, ptile c r true b a /\ rv n x = V n (gpb c) (gpa c) (fun j i => sg F j i * tile F b a j i).
Proof.
move=> /Z_mem [a [b [h ->]]]; exists b, a; split=> //; rewrite rv_Z -V_tr; apply/rowP => q; rewrite !mxE.
by rewrite tile_tr /sg addnC.
Qed.
Lemma tZ2 b a : ptile c r true b a -> exists2 x, x \in Z & rv n x = V n (gpb c) (gpa c) (fun j i => sg F j i * tile F b a j i).
Proof.
move=> h; exists (zcheck a b); first by apply/Z_mem; exists a, b.
by rewrite rv_Z -V_tr; apply/rowP => q; rewrite !mxE tile_tr /sg addnC.
Qed.
Lemma tX1 x : x \in X -> exists b a, wtile c r true b a /\ rv n x = V n (gpb c) (gpa c) (fun j i => one j i * tile F b a j i).
Proof.
move=> /X_mem [a [b [h ->]]]; exists b, a; rewrite wtileE'; split=> //; rewrite rv_X -V_tr; apply/rowP => q; rewrite !mxE.
by rewrite tile_tr.
Qed.
Lemma tX2 b a : wtile c r true b a -> exists2 x, x \in X & rv n x = V n (gpb c) (gpa c) (fun j i => one j i * tile F b a j i).
Proof.
rewrite wtileE' => h; exists (sf_check F r c a b); first by apply/X_mem; exists a, b.
by rewrite rv_X -V_tr; apply/rowP => q; rewrite !mxE tile_tr.
Qed.

Lemma surface_comm : sp n X *m (sp n Z)^T = 0.
Proof. exact: (PW (@g_pos r c c0) (@g_ix r c c0) one1 sgone wX wZ X1 X2 Z1 Z2 r0 c0). Qed.
Lemma surface_counts : counts n (css_mat n X Z) 1 0.
Proof. exact: (grid_counts (@g_pos r c c0) (@g_ix r c c0) one1 sgone wX wZ X1 X2 Z1 Z2 r0 c0). Qed.
Lemma surface_x v : tnon n X Z v -> (c <= hwt v)%N.
Proof. exact: (grid_lower (@g_pos r c c0) (@g_ix r c c0) one1 sgone wX wZ X1 X2 Z1 Z2 r0 c0). Qed.
Lemma surface_x_ex : exists v, tnon n X Z v /\ hwt v = c.
Proof. by eexists; exact: (grid_upper (@g_pos r c c0) (@g_ix r c c0) one1 sgone wX wZ X1 X2 Z1 Z2 r0 c0). Qed.
Lemma surface_z v : tnon n Z X v -> (r <= hwt v)%N.
Proof. exact: (grid_lower (@gt_pos r c c0) (@gt_ix r c c0) sg1 onesg wZ wX tZ1 tZ2 tX1 tX2 c0 r0). Qed.
Lemma surface_z_ex : exists v, tnon n Z X v /\ hwt v = r.
Proof. by eexists; exact: (grid_upper (@gt_pos r c c0) (@gt_ix r c c0) sg1 onesg wZ wX tZ1 tZ2 tX1 tX2 c0 r0). Qed.

Lemma surface_nonempty : (X == [::]) || (Z0 == [::]) = false.
Proof.
have [x hx _] : exists2 x, x \in X & True by exists (sf_check F r c 1 1) => //; apply/X_mem; exists 1%N, 1%N; rewrite /ptile /=; split=> //; lia.
have [z hz _] : exists2 x, x \in Z0 & True by exists (sf_check F r c 0 1) => //; apply/Z0_mem; exists 0%N, 1%N; rewrite /ptile /=; split=> //; lia.
by case: X hx => // ? ? _; case: Z0 hz.
Qed.

Lemma surface_codeE : surface_code F order r c = Some (CSS n X Z false None None None (Some 1%N)).
Proof.
rewrite /surface_code (surjective_pairing (sf_rotated_checks F r c)) -/XZ -/X -/Z0 surface_nonempty -/Z -/n /=.
by have /(css_manyP wX wZ) -> := surface_comm.
Qed.

Lemma tdist_from (x : bool) d : wf n X -> wf n Z ->
  (forall v, (if x then tnon n X Z v else tnon n Z X v) -> (d <= hwt v)%N) ->
  (exists v, (if x then tnon n X Z v else tnon n Z X v) /\ hwt v = d) -> is_tdist x n (css_mat n X Z) d.
Proof.
move=> w1 w2 h [v [nt e]]; have sv : size v = n by case: (x) nt => -[].
split; first by exists v; split=> //; apply/nontrivial_emb.
by move=> u su /(nontrivial_emb _ w1 w2 su) /h.
Qed.

Lemma surface_ok : let C := CSS n X Z false None None None (Some 1%N) in
  [/\ c_ok C, gauge_ok C, commuting n (css_mat n X Z), counts n (css_mat n X Z) 1 0 & dstate_ok C (surface_distances r c C)].
Proof.
move=> C; have cm : commuting n (css_mat n X Z) by apply/css_commP; rewrite ?wX ?wZ // surface_comm.
have ok : c_ok C.
  split; rewrite /= ?wX ?wZ //; split=> //=; first by apply: wf_css; rewrite ?wX ?wZ.
  by move=> k [<-]; exists 0%N; exact: surface_counts.
have tx : is_tdist true n (css_mat n X Z) c by apply: (tdist_from (x := true) wX wZ) surface_x surface_x_ex.
have tz : is_tdist false n (css_mat n X Z) r by apply: (tdist_from (x := false) wX wZ) surface_z surface_z_ex.
split=> //; first exact: surface_counts.
split=> //=; first by apply: css_qdist; rewrite ?wX ?wZ.
have h : (r == c) -> forall d, is_tdist true n (css_mat n X Z) d <-> is_tdist false n (css_mat n X Z) d.
  move=> /eqP e d; split=> [/(tdist_unique tx) <- | /(tdist_unique tz) <-]; [move: tz | move: tx]; by rewrite e.
by have [_ _ _ /=] := @fresh_ok F C (r == c) ok h.
Qed.
End Code.
End Proofs.
