(* Proofs about quantum codes: commutation, centre of the gauge group, dimensions, validation of logical operators. *)
From mathcomp Require Import all_ssreflect all_algebra zify.
From Verif Require Import LinAlg RowReduce Classical ClassicalProofs ClassicalProofs2 Symplectic Quantum.
Set Implicit Arguments.
Unset Strict Implicit.
Unset Printing Implicit Defensive.
Import GRing.Theory.
Local Open Scope ring_scope.

Section Bridge.
Variable F : fieldType.
Notation vec := (seq F).
Notation mat := (seq (seq F)).

Lemma sp_mx m n (A : mat) : size A = m -> (sp n A :=: mx m n A)%MS.
Proof. by move=> <-. Qed.

Lemma indepP n (A : mat) : wf n A -> indep n A <-> row_free (sp n A).
Proof.
move=> wA; split=> [h | fr c c' w hc hc'].
  rewrite -kermx_eq0; apply/eqP/row_matrixP => i; rewrite row0.
  set k := row i _; have k0 : k *m sp n A = 0 by rewrite /k -row_mul mulmx_ker row0.
  have e : lrv k = lrv (0 : 'rV[F]_(size A)).
    apply: (h _ _ (vzero F n)); apply/is_combE; rewrite ?size_lrv ?size_vzero // rv_zero rv_lrv //.
    by rewrite mul0mx.
  by rewrite -[k]rv_lrv e rv_lrv.
have [sc sw _] := hc; have [sc' _ _] := hc'.
apply: (@rv_inj _ (size A)) => //; apply: (row_free_inj fr).
by rewrite -(proj1 (is_combE sc sw) hc) (proj1 (is_combE sc' sw) hc').
Qed.

Lemma spanP n (A : mat) (v : vec) : span n A v <-> size v = n /\ (rv n v <= sp n A)%MS.
Proof.
split=> [h | [sv h]]; last exact/(combP _ sv).
have sv : size v = n by case: h => c [].
by split=> //; apply/(combP _ sv).
Qed.

Lemma span_eqmx n (A B : mat) : (forall v, span n A v <-> span n B v) <-> (sp n A :=: sp n B)%MS.
Proof.
split=> [h | e v]; last by rewrite !spanP e.
have sub (C D : mat) : (forall v, span n C v -> span n D v) -> (sp n C <= sp n D)%MS.
  move=> s; apply/row_subP => i.
  have [] : size (lrv (row i (sp n C))) = n /\ (rv n (lrv (row i (sp n C))) <= sp n D)%MS.
    by apply/spanP/s/spanP; rewrite size_lrv rv_lrv row_sub.
  by rewrite rv_lrv.
by apply/eqmxP/andP; split; apply: sub => v /h.
Qed.

Lemma half_take (T : Type) n (u : seq T) : size u = (n + n)%N -> size (take n u) = n.
Proof. by move=> su; rewrite size_takel // su leq_addl. Qed.
Lemma half_drop (T : Type) n (u : seq T) : size u = (n + n)%N -> size (drop n u) = n.
Proof. by move=> su; rewrite size_drop su addnK. Qed.

Lemma symp_rv n (u v : vec) : size u = (n + n)%N -> size v = (n + n)%N ->
  rv (n + n) u *m symJ F n *m (rv (n + n) v)^T = (symp n u v)%:M.
Proof.
move=> su sv.
have eu : u = take n u ++ drop n u by rewrite cat_take_drop.
have ev : v = take n v ++ drop n v by rewrite cat_take_drop.
have stu : size (take n u) = n by rewrite half_take.
have stv : size (take n v) = n by rewrite half_take.
rewrite [in LHS]eu [in LHS]ev !rv_cat // symJ_row tr_row_mx mul_row_col.
apply/matrixP => i j; rewrite !ord1 !mxE eqxx mulr1n -big_split /=; apply: eq_bigr => k _.
rewrite !mxE !nth_take ?ltn_ord // !nth_drop mulNr addrC; congr (_ - _).
Qed.

Lemma sympE n (u v : vec) : size u = (n + n)%N -> size v = (n + n)%N ->
  symp n u v = 0 <-> rv (n + n) u *m symJ F n *m (rv (n + n) v)^T = 0.
Proof.
move=> su sv; rewrite symp_rv //; split=> [-> | /matrixP /(_ 0 0)]; first by rewrite raddf0.
by rewrite !mxE eqxx mulr1n.
Qed.

Lemma size_conj_row n (r : vec) : size r = (n + n)%N -> size (conj_row n r) = (n + n)%N.
Proof. by move=> sr; rewrite size_cat size_vopp half_drop // half_take. Qed.

Lemma rv_conj_row n (r : vec) : size r = (n + n)%N -> rv (n + n) (conj_row n r) = rv (n + n) r *m symJ F n.
Proof.
move=> sr; rewrite -[in RHS](cat_take_drop n r) [in RHS]rv_cat ?half_take //.
by rewrite symJ_row /conj_row rv_cat ?size_vopp ?half_drop // rv_opp.
Qed.

Lemma wf_conj n (A : mat) : wf (n + n) A -> wf (n + n) (symplectic_conjugate n A).
Proof. by move/wfP => h; apply/wfP => r /mapP [q qA ->]; apply: size_conj_row; apply: h. Qed.

Lemma mx_conj n (A : mat) : wf (n + n) A ->
  mx (size A) (n + n) (symplectic_conjugate n A) = sp (n + n) A *m symJ F n.
Proof.
move=> wA; apply/row_matrixP => i; rewrite row_mul !row_of_mx.
rewrite (nth_map [::]) // rv_conj_row //; exact: wf_nth.
Qed.

Lemma sp_conj n (A : mat) : wf (n + n) A -> (sp (n + n) (symplectic_conjugate n A) :=: sp (n + n) A *m symJ F n)%MS.
Proof. by move=> wA; rewrite -mx_conj //; apply: sp_mx; rewrite size_map. Qed.

Lemma null_conj n (A : mat) : wf (n + n) A ->
  (sp (n + n) (null_space (n + n) (symplectic_conjugate n A)) :=: scomp (sp (n + n) A))%MS.
Proof.
move=> wA; have [_ e] := null_space_spec (wf_conj wA).
apply: eqmx_trans e _; rewrite /scomp; apply: kermx_tr_sub; exact: sp_conj.
Qed.

(* all pairs of rows of A and B commute *)
Lemma commP n (A B : mat) : wf (n + n) A -> wf (n + n) B ->
  (forall u v, u \in A -> v \in B -> symp n u v = 0) <-> sp (n + n) A *m symJ F n *m (sp (n + n) B)^T = 0.
Proof.
move=> wA wB; split=> [h | e u v uA vB].
  apply/row_matrixP => i; rewrite row0 !row_mul row_of_mx.
  apply: trmx_inj; rewrite trmx_mul trmxK trmx0; apply/row_matrixP => j.
  rewrite row_mul row_of_mx row0; apply: trmx_inj; rewrite trmx_mul trmxK trmx0.
  by apply/sympE; [apply: wf_nth | apply: wf_nth | apply: h; apply: mem_nth].
have su : size u = (n + n)%N by move/wfP: wA; apply.
have sv : size v = (n + n)%N by move/wfP: wB; apply.
apply/sympE => //; have /submxP [D ->] := @mem_sp _ (n + n) A u uA.
have /submxP [E ->] := @mem_sp _ (n + n) B v vB.
rewrite trmx_mul -!mulmxA [sp _ A *m _]mulmxA [sp _ A *m _ *m _]mulmxA.
by rewrite e mul0mx mulmx0.
Qed.

Lemma comm_row n (A : mat) (v : vec) : wf (n + n) A -> size v = (n + n)%N ->
  (forall r, r \in A -> symp n r v = 0) <-> (rv (n + n) v <= scomp (sp (n + n) A))%MS.
Proof.
move=> wA sv; have wv : wf (n + n) [:: v] by rewrite /wf /= sv eqxx.
have e : sp (n + n) [:: v] = rv (n + n) v.
  by apply/matrixP => i j; rewrite !mxE ord1.
split=> [h | /scompP h r rA].
  by apply/scompP; rewrite -e; apply: (proj1 (commP wA wv)) => u w uA; rewrite inE => /eqP ->; apply: h.
by apply: (proj2 (commP wA wv)) => //; rewrite ?e // mem_head.
Qed.

Lemma centralP n (A : mat) (v : vec) : wf (n + n) A ->
  central n A v <-> size v = (n + n)%N /\ (rv (n + n) v <= sp (n + n) A :&: scomp (sp (n + n) A))%MS.
Proof.
move=> wA; rewrite sub_capmx; split=> [[/spanP [sv h1] /(comm_row wA sv) h2] | [sv /andP [h1 h2]]].
  by rewrite h1 h2.
by split; [apply/spanP | apply/comm_row].
Qed.
End Bridge.

Section Proofs.
Variable F : fieldType.
Notation vec := (seq F).
Notation mat := (seq (seq F)).
Implicit Type c : qcode F.

Lemma compute_stabs_ok n (A : mat) : wf (n + n) A ->
  is_rref (n + n) (compute_stabs n A) /\
  (sp (n + n) (compute_stabs n A) :=: sp (n + n) A :&: scomp (sp (n + n) A))%MS.
Proof.
move=> wA; set L := null_space (n + n) (symplectic_conjugate n A).
have wL : wf (n + n) L by apply/wf_null_space/wf_conj.
have wAL : wf (n + n) (A ++ L) by rewrite wf_cat wA.
split; first by case: (null_space_spec (wf_conj wAL)).
rewrite /compute_stabs -/L; apply: eqmx_trans (null_conj wAL) _.
apply: eqmx_trans (scomp_eqmx _) (center_comp (sp (n + n) A)).
apply: eqmx_trans (sp_cat _ _ _) _; apply/eqmxP.
have eL := null_conj wA.
by rewrite -!addsmxE !addsmx_sub !addsmxSl /= (submx_trans _ (addsmxSr _ _)) ?eL // (submx_trans _ (addsmxSr _ _)) // eL.
Qed.

Lemma is_canon_free n (A : mat) : wf n A -> is_canonicalized A -> row_free (sp n A).
Proof.
move=> wA /allP h; rewrite -kermx_eq0; apply/eqP/row_matrixP => i0; rewrite row0.
set k := row i0 _; have k0 : k *m sp n A = 0 by rewrite /k -row_mul mulmx_ker row0.
move: k k0 => k k0 {i0}.
suff z m (i : 'I_(size A)) : (size A - m <= i)%N -> k 0 i = 0.
  by apply/rowP => i; rewrite mxE; apply: (z (size A)); lia.
elim: m i => [|m IH] i hi; first by have := ltn_ord i; lia.
have := h i; rewrite mem_iota /= add0n ltn_ord => /(_ isT) /andP [nz /hasPn above].
set p := first_nz _ in nz above.
have lp : (p < n)%N.
  rewrite ltnNge; apply/negP => le; move/negP: nz; apply; apply/eqP; exact: (ent_default_col _ wA le).
move/rowP: k0 => /(_ (Ordinal lp)); rewrite !mxE (bigD1 i) //= mxE big1 => [|j ne]; last first.
  rewrite mxE; have [lt | le] := ltnP j i.
    by have := above j; rewrite mem_iota /= add0n lt => /(_ isT) /negPn /eqP ->; rewrite mulr0.
  rewrite IH ?mul0r //; have : (j : nat) != i by []. lia.
by rewrite addr0 => /eqP; rewrite mulf_eq0 (negPf nz) orbF => /eqP.
Qed.

Lemma gram n (A B : mat) : wf (n + n) A -> wf (n + n) B ->
  mx (size A) (size B) (mull (size B) (symplectic_conjugate n A) (trl (n + n) B)) =
  sp (n + n) A *m symJ F n *m (sp (n + n) B)^T.
Proof.
move=> wA wB; rewrite (@mx_mull _ (size A) (n + n)%N) ?size_trl ?wf_conj ?size_map ?size_iota //.
by rewrite mx_conj // mx_trl.
Qed.

Lemma gram_mx m p n (A B : mat) : size A = m -> size B = p -> wf (n + n) A -> wf (n + n) B ->
  mx m p (mull p (symplectic_conjugate n A) (trl (n + n) B)) = mx m (n + n) A *m symJ F n *m (mx p (n + n) B)^T.
Proof. by move=> <- <- wA wB; rewrite gram. Qed.

Lemma size_gram n (A B : mat) : size (mull (size B) (symplectic_conjugate n A) (trl (n + n) B)) = size A.
Proof. by rewrite size_mull size_map. Qed.

Lemma gram_many n (A B : mat) : wf (n + n) A -> wf (n + n) B ->
  many (mull (size B) (symplectic_conjugate n A) (trl (n + n) B)) = false <->
  (forall u v, u \in A -> v \in B -> symp n u v = 0).
Proof.
move=> wA wB; rewrite (commP wA wB) -gram //.
split=> [h | h]; first by apply: many_mx0; rewrite ?size_gram ?wf_mull.
by apply/negbTE/(many_mx0P (size_gram _ _ _) (wf_mull _ _ _)).
Qed.

Lemma anticommP n (A : mat) : wf (n + n) A -> any_anticommute n A = false <-> commuting n A.
Proof. by move=> wA; rewrite /any_anticommute gram_many. Qed.

Notation Z n A := (sp (n + n) A :&: scomp (sp (n + n) A))%MS.

Lemma comm_center n (A : mat) : wf (n + n) A -> commuting n A -> (Z n A :=: sp (n + n) A)%MS.
Proof.
move=> wA cA; apply/eqmxP; rewrite capmxSl sub_capmx submx_refl /=.
by apply/scompP; apply/(commP wA wA).
Qed.

Lemma center_canon n (A : mat) : wf (n + n) A -> (Z n (canon (n + n) A) :=: Z n A)%MS.
Proof. by move=> wA; apply: cap_eqmx; [|apply: scomp_eqmx]; apply: sp_canon. Qed.

Lemma center_span n (A S : mat) : wf (n + n) A ->
  (forall v, span (n + n) S v <-> central n A v) <-> (sp (n + n) S :=: Z n A)%MS.
Proof.
move=> wA; have [r eC] := compute_stabs_ok wA.
have h v : span (n + n) (compute_stabs n A) v <-> central n A v.
  by rewrite spanP (centralP _ wA) eC.
split=> [hS | e v]; last by rewrite spanP (centralP _ wA) e.
by apply: eqmx_trans eC; apply/span_eqmx => v; rewrite hS h.
Qed.

Lemma q_ok_mk n (A : mat) (sub : option bool) : wf (n + n) A -> (sub = Some false -> commuting n A) ->
  q_ok (mkq n A sub).
Proof.
move=> wA h; split=> //=; case: sub h => [b | _] h //=; first by move=> e; apply: h; rewrite e.
exact/(anticommP wA).
Qed.

(* objects with the same data but another (right) cache *)
Lemma stab_ops_ok c r cz : q_ok c ->
  let s := (get_stabilizer_ops c r cz).1 in
  let c' := (get_stabilizer_ops c r cz).2 in
  [/\ wf (q_n c + q_n c) s, (sp (q_n c + q_n c) s :=: Z (q_n c) (q_mat c))%MS,
      cz -> row_free (sp (q_n c + q_n c) s), q_ok c'
    & (q_n c' = q_n c) /\ (q_mat c' = q_mat c) /\ (q_sub c' = q_sub c)].
Proof.
move=> ok; have [wA hs hst hl hd] := ok; rewrite /get_stabilizer_ops.
have wC := wf_canon wA.
case es: (q_sub c) hs => hs /=; last first.
  have cA := hs erefl; split=> //; case: cz => //=.
  - by apply: eqmx_trans (sp_canon wA) _; apply: eqmx_sym; apply: comm_center.
  - by apply: eqmx_sym; apply: comm_center.
  - by move=> _; apply/rref_free/canon_rref.
have [rF eF] := compute_stabs_ok wC.
set fresh := compute_stabs _ _ in rF eF *.
have wF : wf (q_n c + q_n c) fresh by apply: wf_null_space; apply: wf_conj; rewrite wf_cat wC wf_null_space // wf_conj.
have {}eF : (sp (q_n c + q_n c) fresh :=: Z (q_n c) (q_mat c))%MS.
  by apply: eqmx_trans eF _; apply: center_canon.
have okset s : wf (q_n c + q_n c) s -> (sp (q_n c + q_n c) s :=: Z (q_n c) (q_mat c))%MS -> q_ok (set_stab c s).
  move=> ws e; split=> //= [|s' [<-]]; first by rewrite es.
  by split=> //; apply/center_span.
set s := match q_stab c with Some _ => _ | None => _ end.
have [ws e] : wf (q_n c + q_n c) s /\ (sp (q_n c + q_n c) s :=: Z (q_n c) (q_mat c))%MS.
  rewrite /s; case eS: (q_stab c) => [s'|] //; case: ifP => _ //.
  by have [ws' h] := hst _ eS; split=> //; apply/(center_span _ wA).
case: ifP => [_ | /negbT]; first by split=> //=; [move=> _; exact: rref_free | exact: okset].
rewrite negb_and negbK => hc; split=> //=; last exact: okset.
by move=> ecz; apply: is_canon_free => //; move: hc; rewrite ecz.
Qed.

Lemma stab_ops_rref c r : q_ok c -> q_sub c = false \/ r = true \/ q_stab c = None ->
  rref_spec (q_n c + q_n c) (get_stabilizer_ops c r true).1.
Proof.
move=> [wA _ _ _ _] h; apply: rref_spec_ok; rewrite /get_stabilizer_ops.
case es: (q_sub c) h => h /=; last exact: canon_rref.
have [rF _] := compute_stabs_ok (wf_canon wA).
have -> : match q_stab c with Some s => if r then compute_stabs (q_n c) (canon (q_n c + q_n c) (q_mat c)) else s
          | None => compute_stabs (q_n c) (canon (q_n c + q_n c) (q_mat c)) end =
          compute_stabs (q_n c) (canon (q_n c + q_n c) (q_mat c)).
  by case: h => [|[-> | ->]] //; case: (q_stab c).
by case: ifP.
Qed.

Lemma countsP n (A : mat) k g : wf (n + n) A ->
  counts n A k g <-> (\rank (sp (n + n) A) = \rank (Z n A) + g + g /\ n = k + g + \rank (Z n A))%N.
Proof.
move=> wA; split.
  case=> B [S [[wB iB sB] [wS iS sS] e1 e2]].
  have /eqP rB := proj1 (indepP wB) iB; have /eqP rS := proj1 (indepP wS) iS.
  have eB := proj1 (span_eqmx _ _ _) sB; have eS := proj1 (center_span _ wA) sS.
  by rewrite -eB rB -eS rS.
move=> [e1 e2]; have wC := wf_canon wA; have [rS eS] := compute_stabs_ok wA.
exists (canon (n + n) A), (compute_stabs n A); split.
- split=> //; first by apply/indepP => //; apply/rref_free/canon_rref.
  by apply/span_eqmx; apply: sp_canon.
- have wS : wf (n + n) (compute_stabs n A) by apply: wf_null_space; apply: wf_conj; rewrite wf_cat wA wf_null_space // wf_conj.
  by split=> //; [apply/indepP => //; apply: rref_free | apply/center_span].
- by rewrite size_canon // e1 -eS rref_rank.
by rewrite {1}e2 -eS rref_rank.
Qed.

(* the numbers of logical and gauge qudits are determined by the gauge group *)
Lemma counts_exist n (A : mat) : wf (n + n) A -> exists k g, counts n A k g.
Proof.
move=> wA; have [g e] := rank_center (sp (n + n) A); have le := rank_center_le (sp (n + n) A).
exists (n - g - \rank (Z n A))%N, g; apply/countsP => //; lia.
Qed.

Lemma counts_unique n (A : mat) k g k' g' : wf (n + n) A -> counts n A k g -> counts n A k' g' -> k = k' /\ g = g'.
Proof. move=> wA /(countsP _ _ wA) [e1 e2] /(countsP _ _ wA) [e3 e4]; lia. Qed.

Lemma comm_gauge0 n (A : mat) k g : wf (n + n) A -> commuting n A -> counts n A k g -> g = 0%N.
Proof. move=> wA cA /(countsP _ _ wA) []; rewrite (comm_center wA cA); lia. Qed.

Lemma dimension_counts c : q_ok c -> counts (q_n c) (q_mat c) (q_dimension c) (q_gauge_dimension c).
Proof.
move=> ok; have [wA hs hst hl hd] := ok.
have [k [g hc]] := counts_exist wA; have [e1 e2] := proj1 (countsP _ _ wA) hc.
have [ws es fs _ _] := stab_ops_ok false true ok.
have sz : size (get_stabilizer_ops c false true).1 = \rank (Z (q_n c) (q_mat c)).
  by have /eqP <- := fs isT; rewrite es.
have rk : q_rank c = \rank (sp (q_n c + q_n c) (q_mat c)) by rewrite /q_rank /= size_canon.
have eg : q_gauge_dimension c = g.
  rewrite /q_gauge_dimension; case sb: (q_sub c) => /=; last by rewrite (comm_gauge0 wA (hs sb) hc).
  by rewrite rk sz e1 divn2; lia.
suff -> : q_dimension c = k by rewrite eg.
rewrite /q_dimension; case ed: (q_dim c) => [d|].
  by have [g' h] := hd _ ed; have [] := counts_unique wA h hc.
case el: (q_logs c) => [l|].
  have [k' [g' [[[sl _ _] _] h]]] := hl _ el; have [<- _] := counts_unique wA h hc.
  by rewrite sl divn2; lia.
case sb: (q_sub c) => /=; last by rewrite rk; move: (comm_center wA (hs sb)) (comm_gauge0 wA (hs sb) hc) => e; rewrite -e; lia.
by rewrite rk sz e1 divn2; lia.
Qed.

Lemma bookkeeping c : q_ok c ->
  let s := size (get_stabilizer_ops c false true).1 in
  (q_n c = q_dimension c + q_gauge_dimension c + s)%N /\ (q_rank c = s + 2 * q_gauge_dimension c)%N.
Proof.
move=> ok /=; have [wA _ _ _ _] := ok; have [e1 e2] := proj1 (countsP _ _ wA) (dimension_counts ok).
have [ws es fs _ _] := stab_ops_ok false true ok.
have sz : size (get_stabilizer_ops c false true).1 = \rank (Z (q_n c) (q_mat c)).
  by have /eqP <- := fs isT; rewrite es.
have rk : q_rank c = \rank (sp (q_n c + q_n c) (q_mat c)) by rewrite /q_rank /= size_canon.
by rewrite sz rk; split; [exact: e2 | rewrite e1 mul2n -addnn addnA].
Qed.

Lemma gram_ent m p n (A B : mat) (i : 'I_m) (j : 'I_p) : size A = m -> size B = p -> wf (n + n) A -> wf (n + n) B ->
  (mx m (n + n) A *m symJ F n *m (mx p (n + n) B)^T) i j = symp n (nth [::] A i) (nth [::] B j).
Proof.
move=> sA sB wA wB.
have su : size (nth [::] A i) = (n + n)%N by apply: wf_nth; rewrite ?sA.
have sv : size (nth [::] B j) = (n + n)%N by apply: wf_nth; rewrite ?sB.
have := symp_rv su sv; rewrite -!row_of_mx => /matrixP /(_ 0 0); rewrite [in RHS]mxE eqxx mulr1n => <-.
rewrite [LHS]mxE [RHS]mxE; apply: eq_bigr => l _; congr (_ * _); last by rewrite !mxE.
by rewrite -row_mul [RHS]mxE.
Qed.

Lemma symp_anti n (u v : vec) : symp n u v = - symp n v u.
Proof.
by rewrite /symp -sumrN; apply: eq_bigr => j _; rewrite opprB mulrC [_ * nth 0 v _]mulrC.
Qed.

Lemma symp_self n (u : vec) : symp n u u = 0.
Proof. by rewrite /symp big1 // => j _; rewrite mulrC subrr. Qed.

Lemma eqF (a b : nat) : a <> b -> (a == b) = false.
Proof. by move/eqP/negbTE. Qed.

(* dual pairs in terms of the X-type and Z-type halves *)
Lemma dual_pairsP n k (X Y : mat) : size X = k -> size Y = k -> wf (n + n) X -> wf (n + n) Y ->
  dual_pairs n k (X ++ Y) <->
  [/\ mx k (n + n) X *m symJ F n *m (mx k (n + n) X)^T = 0,
      mx k (n + n) Y *m symJ F n *m (mx k (n + n) Y)^T = 0
    & mx k (n + n) X *m symJ F n *m (mx k (n + n) Y)^T = 1%:M].
Proof.
move=> sX sY wX wY; split=> [[_ _ h] | [/matrixP hX /matrixP hY /matrixP hXY]].
  split; apply/matrixP => i j; rewrite gram_ent // !mxE.
  - have := h i j; rewrite !nth_cat sX !ltn_ord => ->; rewrite ?ltn_addr //.
    by rewrite !eqF ?subr0 //; have := ltn_ord i; have := ltn_ord j; lia.
  - have := h (k + i)%N (k + j)%N; rewrite !nth_cat sX !ltnNge !leq_addr /= !addKn => ->.
    - by rewrite !eqF ?subr0 //; have := ltn_ord i; have := ltn_ord j; lia.
    - by have := ltn_ord i; lia.
    by have := ltn_ord j; lia.
  have := h i (k + j)%N; rewrite !nth_cat sX ltn_ord [(k + j < k)%N]ltnNge leq_addr /= addKn => ->.
  - rewrite (_ : (i : nat) == _ = false) ?subr0; last by have := ltn_ord i; lia.
    by congr (_%:R); rewrite addnC eqn_add2r eq_sym.
  - by have := ltn_ord i; lia.
  by have := ltn_ord j; lia.
split; rewrite ?size_cat ?sX ?sY ?wf_cat ?wX //.
move=> i j li lj; rewrite !nth_cat sX.
have [i1 | i2] := ltnP i k; have [j1 | j2] := ltnP j k.
- by have := hX (Ordinal i1) (Ordinal j1); rewrite gram_ent // mxE => ->; rewrite !eqF ?subr0 //; lia.
- have lt : (j - k < k)%N by lia.
  have := hXY (Ordinal i1) (Ordinal lt); rewrite gram_ent // mxE => ->.
  rewrite (_ : (i == j + k)%N = false) ?subr0; last by lia.
  by congr (_%:R); rewrite -val_eqE /=; lia.
- have lt : (i - k < k)%N by lia.
  rewrite symp_anti; have := hXY (Ordinal j1) (Ordinal lt); rewrite gram_ent // mxE => ->.
  rewrite (_ : (j == i + k)%N = false) ?sub0r; last by lia.
  by congr (- _%:R); rewrite -val_eqE /=; lia.
have lti : (i - k < k)%N by lia.
have ltj : (j - k < k)%N by lia.
have := hY (Ordinal lti) (Ordinal ltj); rewrite gram_ent // mxE => ->.
by rewrite !eqF ?subr0 //; lia.
Qed.

Lemma wf_take n k (A : mat) : wf n A -> wf n (take k A).
Proof. by move/wfP => h; apply/wfP => r /mem_take; apply: h. Qed.
Lemma wf_drop n k (A : mat) : wf n A -> wf n (drop k A).
Proof. by move/wfP => h; apply/wfP => r /mem_drop; apply: h. Qed.

(* what the validation in set_logical_ops establishes *)
Lemma set_logical_ops_ok c (ops : mat) c' : q_ok c -> wf (q_n c + q_n c) ops -> set_logical_ops c ops true = Some c' ->
  let k := q_dimension c in
  [/\ size ops = (k + k)%N,
      (forall i j, (i < k)%N -> (j < k)%N ->
         symp (q_n c) (nth [::] ops i) (nth [::] ops (k + j)) = (i == j)%:R),
      (forall r l, r \in q_mat c -> l \in ops -> symp (q_n c) r l = 0)
    & c' = QCode (q_n c) (q_mat c) (q_sub c) (q_stab c) (q_gauge c) (Some ops) (Some k)].
Proof.
move=> ok wo; have [wA _ _ _ _] := ok; rewrite /set_logical_ops /=.
set k := (size ops %/ 2)%N; set X := take k ops; set Y := drop k ops.
case: ifP => // /negbT; rewrite negb_or !negbK => /andP [/eqP sY /eqP eI].
case: ifP => // /(gram_many wA wo) hc.
case: ifP => // /negbT; rewrite negbK => /eqP ek [<-].
have [wX wY] : wf (q_n c + q_n c) X /\ wf (q_n c + q_n c) Y by rewrite wf_take // wf_drop.
have sX : size X = k by rewrite size_takel // /k; lia.
rewrite -ek; split=> //; first by rewrite -(cat_take_drop k ops) size_cat sX sY.
move=> i j li lj; rewrite -(cat_take_drop k ops) -/X -/Y !nth_cat sX li ltnNge leq_addr /= addKn.
rewrite sY in eI; have := gram_mx sX sY wX wY; rewrite eI => /matrixP /(_ (Ordinal li) (Ordinal lj)).
by rewrite (gram_ent _ _ sX sY wX wY) mx_idl mxE.
Qed.

Lemma logical_basis_halves n k (A L : mat) : logical_basis n k A L ->
  [/\ size (take k L) = k, size (drop k L) = k, wf (n + n) (take k L) & wf (n + n) (drop k L)].
Proof.
case=> [[sL wL _] _]; rewrite size_takel ?size_drop ?sL ?addnK ?leq_addl //; split=> //; first exact: wf_take.
exact: wf_drop.
Qed.

(* valid logical operators are accepted *)
Lemma set_logical_ops_complete c (ops : mat) : q_ok c -> logical_basis (q_n c) (q_dimension c) (q_mat c) ops ->
  let c' := QCode (q_n c) (q_mat c) (q_sub c) (q_stab c) (q_gauge c) (Some ops) (Some (q_dimension c)) in
  set_logical_ops c ops true = Some c' /\ q_ok c'.
Proof.
move=> ok lb; have [wA h1 h2 h3 h4] := ok; have [dp hc] := lb; have [sL wL _] := dp.
have [sX sY wX wY] := logical_basis_halves lb.
split; last first.
  have dc := dimension_counts ok.
  split=> //= l [<-]; first by exists (q_dimension c), (q_gauge_dimension c).
  by exists (q_gauge_dimension c).
rewrite /set_logical_ops /= sL.
have -> : ((q_dimension c + q_dimension c) %/ 2)%N = q_dimension c by rewrite divn2; lia.
rewrite sY eqxx /=.
have dp' := dp; rewrite -(cat_take_drop (q_dimension c) ops) in dp'.
have [_ _ e] := proj1 (dual_pairsP sX sY wX wY) dp'.
have -> : mull (q_dimension c) (symplectic_conjugate (q_n c) (take (q_dimension c) ops))
           (trl (q_n c + q_n c) (drop (q_dimension c) ops)) = idl F (q_dimension c).
  apply: (@mx_inj _ (q_dimension c) (q_dimension c)); rewrite ?size_idl ?wf_idl ?wf_mull // ?size_mull ?size_map //.
  by rewrite gram_mx // e mx_idl.
rewrite eqxx /=.
have -> : many (mull (q_dimension c + q_dimension c) (symplectic_conjugate (q_n c) (q_mat c)) (trl (q_n c + q_n c) ops)) = false.
  by rewrite -sL; apply/gram_many.
by [].
Qed.
End Proofs.
