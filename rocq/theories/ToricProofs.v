(* Rotated toric codes: commuting checks, two logical qudits, distance.  Proofs. *)
From mathcomp Require Import all_ssreflect all_algebra zify ring.
From Verif Require Import LinAlg RowReduce Classical ClassicalProofs ClassicalProofs2 ClassicalDist.
From Verif Require Import Symplectic Quantum QuantumProofs QuantumLogs Css CssLogs CssProofs CssGauge QuantumDist CssDist CssCert Torus Surface.
From Verif Require Import SurfaceProofs.
Set Implicit Arguments.
Unset Strict Implicit.
Unset Printing Implicit Defensive.
Import GRing.Theory.
Local Open Scope ring_scope.

Section Proofs.
Variable F : fieldType.
Notation vec := (seq F).
Notation mat := (seq (seq F)).

Lemma tdist_of n (X Z : mat) (x : bool) d : wf n X -> wf n Z ->
  (forall v, (if x then tnon n X Z v else tnon n Z X v) -> (d <= hwt v)%N) ->
  (exists v, (if x then tnon n X Z v else tnon n Z X v) /\ hwt v = d) -> is_tdist x n (css_mat n X Z) d.
Proof.
move=> w1 w2 h [v [nt e]]; have sv : size v = n by case: (x) nt => -[].
split; first by exists v; split=> //; apply/nontrivial_emb.
by move=> u su /(nontrivial_emb _ w1 w2 su) /h.
Qed.

Section Code.
Variables (order r c : nat).
Hypotheses (r1 : (1 < r)%N) (c1 : (1 < c)%N) (er : ~~ odd r) (ec : ~~ odd c) (o2 : (order <= 2)%N -> 1 + 1 = 0 :> F).
Let n := (r * c)%N.
Let c0 : (0 < c)%N. Proof. by apply: ltnW. Qed.
Let r0 : (0 < r)%N. Proof. by apply: ltnW. Qed.
Let XZ := tc_rotated_checks F r c.
Let X0 := XZ.1.
Let Z0 := XZ.2.
Let Zs := if (2 < order)%N then negate_cols (default_conjugate r c) Z0 else Z0.
Let small := (r == c) && (c == 2%N).
Let X := if small then take (size X0).-1 X0 else X0.
Let Z := if small then take (size Zs).-1 Zs else Zs.

Let ix (a b : nat) : nat := (a * c + b)%N.
Let pa (q : nat) : nat := (q %/ c)%N.
Let pb (q : nat) : nat := (q %% c)%N.
Lemma c_pos q : (q < n)%N -> [/\ (pa q < r)%N, (pb q < c)%N & ix (pa q) (pb q) = q].
Proof. by move=> lq; rewrite /pa /pb /ix -divn_eq ltn_pmod // ltn_divLR. Qed.
Lemma c_ix a b : (a < r)%N -> (b < c)%N -> [/\ (ix a b < n)%N, pa (ix a b) = a & pb (ix a b) = b].
Proof.
move=> la lb; rewrite /pa /pb /ix divnMDl // modnMDl divn_small // modn_small // addn0; split=> //.
apply: (@leq_trans (a * c + c)%N); first by rewrite ltn_add2l.
by rewrite addnC -mulSn leq_mul2r la orbT.
Qed.

Let chk (t : nat * nat) := tc_check F r c t.1 t.2.
Let ts := [seq (row, col) | row <- iota 0 r, col <- iota 0 c].
Let kx (t : nat * nat) := odd t.1 == odd t.2.
Lemma tchecks_E : XZ = ([seq chk t | t <- ts & kx t], [seq chk t | t <- ts & ~~ kx t]).
Proof.
have := foldl_split chk xpred0 kx xpredT ts [::] [::]; rewrite !cat0s => /= e.
rewrite /XZ /tc_rotated_checks -/ts e; congr (_, _); congr map; apply: eq_filter => t; by rewrite andbT.
Qed.

Lemma tts_mem a b : ((a, b) \in ts) = ((a < r) && (b < c))%N.
Proof.
apply/allpairsP/idP => [[[a' b'] [ha hb [-> ->]]] | /andP [ha hb]].
  by move: ha hb; rewrite !mem_iota !add0n /= => -> ->.
by exists (a, b); rewrite !mem_iota !add0n.
Qed.

Lemma X0_mem x : x \in X0 <-> exists a b, tp r c false a b /\ x = tc_check F r c a b.
Proof.
rewrite /X0 tchecks_E; split.
  case/mapP => -[a b]; rewrite mem_filter tts_mem => /andP [ho /andP [ha hb]] ->.
  exists a, b; split=> //; rewrite /tp ha hb /= oddD; by move: ho; rewrite /kx /=; case: odd; case: odd.
move=> [a [b [/and3P [la lb ho] ->]]]; apply/mapP; exists (a, b) => //; rewrite mem_filter tts_mem la lb andbT /kx /=.
by move: ho; rewrite oddD; case: odd; case: odd.
Qed.
Lemma Z0_mem' x : x \in Z0 <-> exists a b, tp r c true a b /\ x = tc_check F r c a b.
Proof.
rewrite /Z0 tchecks_E; split.
  case/mapP => -[a b]; rewrite mem_filter tts_mem => /andP [ho /andP [ha hb]] ->.
  exists a, b; split=> //; rewrite /tp ha hb /= oddD; by move: ho; rewrite /kx /=; case: odd; case: odd.
move=> [a [b [/and3P [la lb ho] ->]]]; apply/mapP; exists (a, b) => //; rewrite mem_filter tts_mem la lb andbT /kx /=.
by move: ho; rewrite oddD; case: odd; case: odd.
Qed.

Lemma in_tcorners a b q : (a < r)%N -> (b < c)%N -> ((q %/ c, q %% c)%N \in [seq (t.1 %% r, t.2 %% c)%N | t <- corners a b]) =
  (((q %/ c == a) || (q %/ c == suc r a)) && ((q %% c == b) || (q %% c == suc c b)))%N.
Proof.
move=> la lb; rewrite /corners /= !inE !xpair_eqE /suc (modn_small la) (modn_small lb).
by case: (q %/ c == a)%N; case: (q %/ c == a.+1 %% r)%N; case: (q %% c == b)%N; case: (q %% c == b.+1 %% c)%N.
Qed.

Lemma size_tc a b : size (tc_check F r c a b) = n. Proof. by rewrite size_mkseq. Qed.
Lemma rv_tc a b : (a < r)%N -> (b < c)%N -> rv n (tc_check F r c a b) = U n pa pb (fun i j => 1 * ttile F r c a b i j).
Proof.
move=> la lb; apply/rowP => q; rewrite !mxE nth_mkseq ?ltn_ord // in_tcorners // mul1r /ttile; by case: ifP.
Qed.

Definition ztcheck a b : vec := if (2 < order)%N then head [::] (negate_cols (default_conjugate r c) [:: tc_check F r c a b]) else tc_check F r c a b.
Lemma Zs_mem x : x \in Zs <-> exists a b, tp r c true a b /\ x = ztcheck a b.
Proof.
rewrite /Zs /ztcheck; case: ifP => _; last exact: Z0_mem'.
split=> [/mapP [y /Z0_mem' [a [b [h ->]]] ->] | [a [b [h ->]]]]; first by exists a, b.
by apply/mapP; exists (tc_check F r c a b) => //; apply/Z0_mem'; exists a, b.
Qed.
Lemma size_ztcheck a b : size (ztcheck a b) = n.
Proof. by rewrite /ztcheck; case: ifP => _ /=; rewrite ?size_mkseq. Qed.
Lemma rv_ztc a b : (a < r)%N -> (b < c)%N -> rv n (ztcheck a b) = U n pa pb (fun i j => tsg F i j * ttile F r c a b i j).
Proof.
move=> la lb; rewrite /ztcheck; case: ltnP => ho.
  apply/rowP => q; rewrite !mxE /= nth_mkseq ?size_tc // mem_filter mem_iota add0n /= ltn_ord andbT nth_mkseq // in_tcorners // /ttile /tsg.
  rewrite /pa /pb; case: odd; case: ifP => _; by rewrite ?mul1r ?mulr0 ?oppr0 ?mulN1r.
rewrite rv_tc //; apply/rowP => q; rewrite !mxE /tsg; have -> : -1 = 1 :> F by apply/eqP; rewrite eq_sym -addr_eq0; apply/eqP; exact: o2.
by rewrite if_same.
Qed.

Lemma X_sub x : x \in X -> x \in X0. Proof. by rewrite /X; case: ifP => // _; apply: mem_take. Qed.
Lemma Z_sub x : x \in Z -> x \in Zs. Proof. by rewrite /Z; case: ifP => // _; apply: mem_take. Qed.

Let one (a b : nat) : F := 1.
Let one1 a b : one a b * one a b = 1. Proof. by rewrite /one mulr1. Qed.
Let sgone a b : tsg F a b = tsg F a b * one a b. Proof. by rewrite /one mulr1. Qed.
Let sg1 a b : tsg F a b * tsg F a b = 1. Proof. by rewrite /tsg; case: ifP; rewrite ?mulrNN mulr1. Qed.
Let onesg a b : one a b = tsg F a b * tsg F a b. Proof. by rewrite sg1. Qed.

(* on the 2 x 2 torus all tiles are the same *)
Lemma small_tile a b a' b' i j : small -> (a < r)%N -> (b < c)%N -> (a' < r)%N -> (b' < c)%N -> (i < r)%N -> (j < c)%N ->
  ttile F r c a b i j = ttile F r c a' b' i j.
Proof.
case/andP => /eqP -> /eqP -> la lb la' lb' li lj; rewrite /ttile /suc; congr ((_ && _)%:R).
  by move: la la' li; case: a => [|[|a]] //; case: a' => [|[|a']] //; case: i => [|[|i]].
by move: lb lb' lj; case: b => [|[|b]] //; case: b' => [|[|b']] //; case: j => [|[|j]].
Qed.

Lemma small_first : small -> tc_check F r c 0 0 \in X /\ ztcheck 0 1 \in Z.
Proof.
move=> h; have et : ts = [:: (0, 0); (0, 1); (1, 0); (1, 1)]%N by rewrite /ts; case/andP: h => /eqP -> /eqP ->.
have eX : X0 = [:: chk (0, 0); chk (1, 1)]%N by rewrite /X0 tchecks_E et.
have eZ : Z0 = [:: chk (0, 1); chk (1, 0)]%N by rewrite /Z0 tchecks_E et.
rewrite /X /Z h /Zs /ztcheck eX eZ; case: ifP => _; by rewrite /= !inE !eqxx.
Qed.

Lemma X1 x : x \in X -> exists a b, tp r c false a b /\ rv n x = U n pa pb (fun i j => one i j * ttile F r c a b i j).
Proof. by move=> /X_sub /X0_mem [a [b [h ->]]]; exists a, b; split=> //; have /and3P [la lb _] := h; rewrite rv_tc. Qed.
Lemma X2 a b : tp r c false a b -> exists2 x, x \in X & rv n x = U n pa pb (fun i j => one i j * ttile F r c a b i j).
Proof.
move=> h; have /and3P [la lb _] := h; case: (boolP small) => sm.
  exists (tc_check F r c 0 0); first by have [] := small_first sm.
  rewrite rv_tc //; apply/rowP => q; rewrite !mxE; have [lqa lqb _] := c_pos (ltn_ord q).
  by rewrite (@small_tile _ _ a b).
exists (tc_check F r c a b); last by rewrite rv_tc.
by rewrite /X (negbTE sm); apply/X0_mem; exists a, b.
Qed.
Lemma Z1 x : x \in Z -> exists a b, tp r c true a b /\ rv n x = U n pa pb (fun i j => tsg F i j * ttile F r c a b i j).
Proof. by move=> /Z_sub /Zs_mem [a [b [h ->]]]; exists a, b; split=> //; have /and3P [la lb _] := h; rewrite rv_ztc. Qed.
Lemma Z2 a b : tp r c true a b -> exists2 x, x \in Z & rv n x = U n pa pb (fun i j => tsg F i j * ttile F r c a b i j).
Proof.
move=> h; have /and3P [la lb _] := h; case: (boolP small) => sm.
  exists (ztcheck 0 1); first by have [] := small_first sm.
  rewrite rv_ztc //; apply/rowP => q; rewrite !mxE; have [lqa lqb _] := c_pos (ltn_ord q).
  by rewrite (@small_tile _ _ a b).
exists (ztcheck a b); last by rewrite rv_ztc.
by rewrite /Z (negbTE sm); apply/Zs_mem; exists a, b.
Qed.

Lemma wX : wf n X. Proof. by apply/wfP => x /X_sub /X0_mem [a [b [_ ->]]]; rewrite size_tc. Qed.
Lemma wZ : wf n Z. Proof. by apply/wfP => x /Z_sub /Zs_mem [a [b [_ ->]]]; rewrite size_ztcheck. Qed.

Lemma toric_comm : sp n X *m (sp n Z)^T = 0.
Proof. exact: (tPW r1 c1 er ec c_pos c_ix one1 sgone X1 Z1). Qed.
Lemma toric_counts : counts n (css_mat n X Z) 2 0.
Proof. exact: (torus_counts r1 c1 er ec c_pos c_ix one1 sgone wX wZ X1 X2 Z1 Z2). Qed.
Lemma toric_x v : tnon n X Z v -> (minn r c <= hwt v)%N.
Proof. exact: (torus_lower r1 c1 er ec c_pos c_ix one1 sgone wX wZ X1 X2 Z1 Z2). Qed.
Lemma toric_x_ex : exists v, tnon n X Z v /\ hwt v = minn r c.
Proof. exact: (torus_upper r1 c1 er ec c_pos c_ix one1 sgone wX wZ X1 X2 Z1 Z2). Qed.
Lemma toric_z v : tnon n Z X v -> (minn r c <= hwt v)%N.
Proof. exact: (torus_lower (p := true) r1 c1 er ec c_pos c_ix sg1 onesg wZ wX Z1 Z2 X1 X2). Qed.
Lemma toric_z_ex : exists v, tnon n Z X v /\ hwt v = minn r c.
Proof. exact: (torus_upper (p := true) r1 c1 er ec c_pos c_ix sg1 onesg wZ wX Z1 Z2 X1 X2). Qed.

Lemma toric_nonempty : (X0 == [::]) || (Z0 == [::]) = false.
Proof.
have hx : tc_check F r c 0 0 \in X0 by apply/X0_mem; exists 0%N, 0%N; rewrite /tp r0 c0.
have hz : tc_check F r c 0 1 \in Z0 by apply/Z0_mem'; exists 0%N, 1%N; rewrite /tp r0 c1.
by case: X0 hx => // ? ? _; case: Z0 hz.
Qed.

Lemma toric_codeE : toric_code F order r c = Some (CSS n X Z false None None None (Some 2%N)).
Proof.
rewrite /toric_code (negbTE er) (negbTE ec) /= (surjective_pairing (tc_rotated_checks F r c)) -/XZ -/X0 -/Z0 toric_nonempty.
rewrite -/Zs -/small -/X -/Z -/n /=.
by have /(css_manyP wX wZ) -> := toric_comm.
Qed.

Lemma toric_ok : let C := CSS n X Z false None None None (Some 2%N) in
  [/\ c_ok C, gauge_ok C, commuting n (css_mat n X Z), counts n (css_mat n X Z) 2 0 & dstate_ok C (toric_distances r c C)].
Proof.
move=> C; have cm : commuting n (css_mat n X Z) by apply/css_commP; rewrite ?wX ?wZ // toric_comm.
have ok : c_ok C.
  split; rewrite /= ?wX ?wZ //; split=> //=; first by apply: wf_css; rewrite ?wX ?wZ.
  by move=> k [<-]; exists 0%N; exact: toric_counts.
have tx : is_tdist true n (css_mat n X Z) (minn r c) by apply: (tdist_of (x := true) wX wZ) toric_x toric_x_ex.
have tz : is_tdist false n (css_mat n X Z) (minn r c) by apply: (tdist_of (x := false) wX wZ) toric_z toric_z_ex.
split=> //; first exact: toric_counts.
split=> //=; first by rewrite -(minnn (minn r c)); apply: css_qdist; rewrite ?wX ?wZ.
have h d : is_tdist true n (css_mat n X Z) d <-> is_tdist false n (css_mat n X Z) d.
  by split=> [/(tdist_unique tx) <- | /(tdist_unique tz) <-].
by have [_ _ _ /=] := @fresh_ok F C (r == c) ok (fun _ => h).
Qed.
End Code.
End Proofs.
